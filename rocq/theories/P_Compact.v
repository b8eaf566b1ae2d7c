(** Graphs with at most 64 nodes are compact. *)
From Coq Require Import Reals List Bool Arith Lia Lra.
From Verif Require Import M_UserGraph S_UserGraph P_UserGraph M_Merge S_Spread S_Pipeline P_Pipeline P_Pipeline3.
Import ListNotations.
Local Open Scope nat_scope.

Section Chains.
Variables (S : nat * option nat -> Prop) (n : nat).
Hypothesis SN : forall v x, S (v, x) -> v < n /\ forall u, x = Some u -> u < n.
Definition link (v : nat) (x : option nat) : Prop := S (v, x) \/ exists u, x = Some u /\ S (u, Some v).
(** The nodes on the way from [a], the latest first. *)
Fixpoint trail (a : nat) (l : list nat) : Prop :=
  match l with
  | [] => False
  | v :: l' => match l' with [] => v = a | u :: _ => link u (Some v) /\ trail a l' end
  end.
Lemma trail_cut : forall a l v, trail a l -> NoDup l -> In v l -> exists l', trail a (v :: l') /\ NoDup (v :: l').
Proof.
  intros a. induction l as [|u l IH]; intros v H ND Hv; [destruct Hv|]. destruct Hv as [->|Hv]; [exists l; auto|]. apply NoDup_cons_iff in ND as [_ ND].
  destruct l as [|w l]; [destruct Hv|]. exact (IH v (proj2 H) ND Hv).
Qed.
Lemma chain_trail : forall a x c, chain (fun p c => S p /\ c = 1%R) a x c ->
  match x with Some v => exists l, trail a (v :: l) /\ NoDup (v :: l) | None => exists u l, trail a (u :: l) /\ NoDup (u :: l) /\ link u None end.
Proof.
  intros a x c H. induction H as [|v x c d H IH HS]; [exists []; split; [reflexivity|repeat constructor; intros []]|]. destruct IH as (l & T & ND).
  assert (L : link v x) by (destruct HS as [[HS _]|(u & -> & HS & _)]; [now left|right; exists u; auto]).
  destruct x as [w|]; [|exists v, l; auto]. destruct (in_dec Nat.eq_dec w (v :: l)) as [Hi|Hi]; [exact (trail_cut a (v :: l) w T ND Hi)|].
  exists (v :: l). split; [split; assumption|now constructor].
Qed.
Lemma trail_chain : forall a l v, trail a (v :: l) -> chain (fun p c => S p /\ c = 1%R) a (Some v) (INR (length l)).
Proof.
  intros a. induction l as [|u l IH]; intros v H; [cbn in H; subst; constructor|]. destruct H as [L T]. cbn [length]. rewrite S_INR. apply chain_step with u; [now apply IH|].
  destruct L as [L|(w & E & L)]; [left; auto|right; exists w; auto].
Qed.
Lemma link_in : forall v x, link v x -> v < n.
Proof. intros v x [L|(u & -> & L)]; [exact (proj1 (SN v x L))|exact (proj2 (SN u (Some v) L) v eq_refl)]. Qed.
Lemma link_out : forall v u, link v (Some u) -> u < n.
Proof. intros v u [L|(w & E & L)]; [exact (proj2 (SN v _ L) u eq_refl)|injection E as <-; exact (proj1 (SN u _ L))]. Qed.
Lemma trail_nodes : forall a l, trail a l -> 2 <= length l -> forall v, In v l -> v < n.
Proof.
  intros a. induction l as [|u l IH]; intros H L v Hv; [destruct Hv|]. destruct l as [|w l]; [cbn in L; lia|]. destruct H as [K T]. destruct Hv as [<-|Hv]; [exact (link_out w u K)|].
  destruct l as [|y l]; [destruct Hv as [<-|[]]; exact (link_in w _ K)|]. apply IH; [exact T|cbn; lia|exact Hv].
Qed.
Lemma nodes_few : forall l, NoDup l -> (forall v, In v l -> v < n) -> length l <= n.
Proof. intros l ND H. rewrite <- (seq_length n 0). apply NoDup_incl_length; [exact ND|]. intros v Hv. apply in_seq. specialize (H v Hv). lia. Qed.
Lemma few_nodes_close : n <= 64 -> few_steps S.
Proof.
  intros N a x c H. assert (E64 : 64%R = INR 64) by (rewrite INR_IZR_INZ; reflexivity). pose proof (chain_trail a x c H) as T. destruct x as [v|].
  - destruct T as (l & T & ND). exists (INR (length l)). split; [now apply trail_chain|]. rewrite E64. apply le_INR.
    destruct l as [|u l]; [cbn; lia|]. pose proof (nodes_few _ ND (trail_nodes a _ T ltac:(cbn; lia))) as L. cbn in L |- *. lia.
  - destruct T as (u & l & T & ND & K). exists (INR (length l) + 1)%R. split.
    + apply chain_step with u; [now apply trail_chain|]. destruct K as [K|(w & E & _)]; [left; auto|discriminate].
    + rewrite <- S_INR. rewrite E64. apply le_INR. destruct l as [|w l]; [cbn; pose proof (link_in u _ K); lia|].
      pose proof (nodes_few _ ND (trail_nodes a _ T ltac:(cbn; lia))) as L. cbn in L |- *. lia.
Qed.
End Chains.

Lemma few_nodes_compact : forall g : ugraph RN, Inv g -> num_nodes g <= 64 -> compact g.
Proof.
  intros g (_ & HN & _) L. left. apply few_nodes_close with (n := num_nodes g); [|exact L]. intros v x (e & He & HS). destruct (HN e He) as [N1 N2]. unfold num_nodes.
  unfold shows in HS. cbn [fst snd] in HS. destruct x as [u|].
  - destruct HS as (_ & _ & [[<- E]|[<- E]]).
    + split; [exact N1|]. intros u' Eu. injection Eu as <-. now apply N2.
    + split; [now apply N2|]. intros u' Eu. injection Eu as <-. exact N1.
  - destruct HS as [_ [[<- _]|[E _]]]; (split; [|discriminate]); [exact N1|now apply N2].
Qed.
Lemma calls_compact : forall n k (ops : list (op RN)), let g := run (new_graph RN n k) ops in num_nodes g <= 64 -> compact g.
Proof. intros n k ops g. apply few_nodes_compact. exact (calls_inv n k ops). Qed.
