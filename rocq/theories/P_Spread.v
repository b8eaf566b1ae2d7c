(** Chains and paths. *)
From Coq Require Import Reals ZArith List Bool Arith Lia Lra.
From Verif Require Import M_Base M_Core S_Core M_Build S_Build S_ToEdges S_Session S_Reach S_Spread.
Import ListNotations.

(** The same connections, perhaps the other way round. *)
Definition covers (S S' : nat * option nat -> R -> Prop) : Prop := forall p c, S p c -> S' p c \/ exists u v, p = (u, Some v) /\ S' (v, Some u) c.
Lemma chain_covers : forall S S', covers S S' -> forall a x c, chain S a x c -> chain S' a x c.
Proof.
  intros S S' H a x c HC. induction HC as [|v x c d HC IH Hs]; [constructor|]. apply (chain_step S' a v x c d IH). destruct Hs as [Hs|(u & -> & Hs)].
  - destruct (H _ _ Hs) as [H'|(u & w & E & H')]; [now left|]. injection E as -> ->. right. exists w. auto.
  - destruct (H _ _ Hs) as [H'|(u' & w & E & H')]; [right; exists u; auto|]. injection E as -> ->. now left.
Qed.
Lemma close_covers : forall S S' D, covers S S' -> covers S' S -> close S D -> close S' D.
Proof. intros S S' D H H' HC a x c P. destruct (HC a x c (chain_covers _ _ H' _ _ _ P)) as (c' & P' & L). exists c'. split; [exact (chain_covers _ _ H _ _ _ P')|exact L]. Qed.
Lemma few_covers : forall S S' : nat * option nat -> Prop,
  (forall p, S p -> S' p \/ exists u v, p = (u, Some v) /\ S' (v, Some u)) -> (forall p, S' p -> S p \/ exists u v, p = (u, Some v) /\ S (v, Some u)) -> few_steps S -> few_steps S'.
Proof.
  intros S S' H H'. apply close_covers; intros p c [HS ->].
  - destruct (H p HS) as [?|(u & v & -> & ?)]; [now left|right; eauto].
  - destruct (H' p HS) as [?|(u & v & -> & ?)]; [now left|right; eauto].
Qed.

Lemma few_within : forall E, (forall e, In e E -> (Z.abs (s_weight e) <= max_weight)%Z) -> few_steps (fun p => exists e, In e E /\ s_pair e = p) -> s_within E 2147483648.
Proof.
  intros E HW HF a x l P.
  assert (X : exists w, chain (fun p w => (exists e, In e E /\ s_pair e = p) /\ w = 1%R) a x w).
  { clear HF. induction P as [|v l x u y w o P IH Hin Hx]; [exists 0%R; constructor|]. destruct IH as (w0 & IH). exists (w0 + 1)%R. apply (chain_step _ a v x w0 1 IH).
    destruct Hx as [[-> ->]|[-> ->]]; [left|right; exists u; split; [reflexivity|]]; (split; [|reflexivity]); eexists; (split; [exact Hin|reflexivity]). }
  destruct X as (w & W). destruct (HF a x w W) as (w' & W' & LW). clear P W l w.
  assert (X : exists l', s_path E a x l' /\ (IZR l' <= IZR max_weight * w')%R).
  { clear LW HF. induction W' as [|v x w w1 H IH H1]; [exists 0%Z; split; [constructor|rewrite Rmult_0_r; lra]|]. destruct IH as (l & P & L).
    assert (X : exists u y z o, In (u, y, z, o) E /\ ((u = v /\ y = x) \/ (y = Some v /\ x = Some u)) /\ w1 = 1%R).
    { destruct H1 as [[([[[u y] z] o] & H1 & H2) ->]|(u' & -> & ([[[u y] z] o] & H1 & H2) & ->)]; cbn [s_pair] in H2; injection H2 as -> ->; do 4 eexists; (split; [exact H1|]); (split; [|reflexivity]); [now left|now right]. }
    destruct X as (u & y & z & o & Hin & Hx & ->). exists (l + Z.abs z)%Z. split; [exact (s_path_step E a v l x u y z o P Hin Hx)|].
    pose proof (HW _ Hin) as B. cbn [s_weight] in B. apply IZR_le in B. rewrite plus_IZR. lra. }
  destruct X as (l' & P' & L'). exists l'. split; [exact P'|]. apply lt_IZR. unfold max_weight in L'. lra.
Qed.
Local Open Scope R_scope.
Lemma single_steps : forall (T : nat * option nat -> Prop), (forall p, T p -> snd p = None) -> few_steps T.
Proof.
  intros T HT a x c H. inversion H as [|v y c0 d H0 H1 E1 E2]; subst; [exists 0; split; [constructor|lra]|]. 
  assert (V : v = a /\ x = None /\ T (a, None)).
  { assert (S0 : forall y, chain (fun p c => T p /\ c = 1) a y c0 -> y = Some v -> v = a).
    { intros y HC Hy. destruct HC as [|u z c1 d1 HC Hs]; [now injection Hy as ->|]. destruct Hs as [[Hs _]|(w & -> & Hs & _)]; apply HT in Hs; cbn in Hs; congruence. }
    rewrite (S0 _ H0 eq_refl) in *. destruct H1 as [[H1 _]|(w & -> & H1 & _)]; [|apply HT in H1; discriminate]. pose proof (HT _ H1) as E. cbn in E. subst x. auto. }
  destruct V as (-> & -> & V). exists (0 + 1). split; [|lra]. apply (chain_step _ a a None 0 1); [constructor|]. left. auto.
Qed.
