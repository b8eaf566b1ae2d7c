(** Distances in the matching graph and among the edges given by the caller. *)
From Coq Require Import ZArith NArith List Bool Arith Lia.
From Verif Require Import M_Base M_Core S_Core M_Build S_Build S_Reach P_Build P_Convert.
Import ListNotations.
Local Open Scope Z_scope.

Section Built.
Variables (nobs n : nat) (E : list sedge) (g : mgraph).
Hypothesis HB : built nobs n E g.

Lemma walk_s_path : forall a b l o, walk (adj g) a b l o -> s_path E a (Some b) l.
Proof.
  intros a b l o H. induction H as [|v l o x w ob H IH Hin]; [constructor|]. apply (adj_edge _ _ _ _ HB) in Hin as (_ & w0 & obs & [Hin|Hin] & -> & _).
  - apply (s_path_step E a v l (Some x) _ _ _ _ IH Hin). now left.
  - apply (s_path_step E a v l (Some x) _ _ _ _ IH Hin). now right.
Qed.
Lemma path_s_path : forall a x l o, path (adj g) a x l o -> s_path E a x l.
Proof.
  intros a [b|] l o H; [exact (walk_s_path a b l o H)|]. destruct H as (v & l' & o' & w & ob & H & Hin & -> & _). apply (adj_boundary _ _ _ _ HB) in Hin as (w0 & obs & Hin & -> & _).
  apply (s_path_step E a v l' None _ _ _ _ (walk_s_path a v l' o' H) Hin). now left.
Qed.
Lemma s_path_path : forall a x l, s_path E a x l -> exists l' o, path (adj g) a x l' o /\ l' <= l.
Proof.
  intros a x l H. induction H as [|v l x u y w o H IH Hin Hx]; [exists 0, 0%N; split; [constructor|lia]|]. destruct IH as (l' & o' & W & L).
  destruct x as [b|].
  - destruct (Nat.eq_dec v b) as [<-|Ne]; [exists l', o'; split; [exact W|lia]|].
    exists (l' + Z.abs w), (N.lxor o' (mask_of nobs o)). split; [|lia]. apply (walk_step _ _ v); [exact W|]. apply (adj_edge _ _ _ _ HB). split; [assumption|]. exists w, o.
    destruct Hx as [[-> ->]|[-> E2]]; [auto|]. injection E2 as <-. auto.
  - destruct Hx as [[-> ->]|[_ ?]]; [|discriminate]. exists (l' + Z.abs w), (N.lxor o' (mask_of nobs o)). split; [|lia]. exists v, l', o', (Z.abs w), (mask_of nobs o). split; [exact W|]. split; [|auto].
    apply (adj_boundary _ _ _ _ HB). exists w, o. auto.
Qed.
Lemma built_joined : forall D, s_within E D -> joined_within (adj g) D.
Proof.
  intros D H s x l o P. destruct (H s x l (path_s_path s x l o P)) as (l' & P' & L). destruct (s_path_path s x l' P') as (l2 & o2 & P2 & L2). exists l2, o2. split; [exact P2|lia].
Qed.
Lemma built_within : forall D, s_within E D -> forall ev, within (adj g) ev D.
Proof. intros D H ev s x l o _ _ P. exact (built_joined D H s x l o P). Qed.
End Built.
