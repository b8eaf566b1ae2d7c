(** In a graph with few nodes nothing is far from anything. *)
From Coq Require Import ZArith NArith List Bool Arith Lia.
From Verif Require Import M_Base M_Core S_Core S_Decode S_Reach M_Build S_Build P_CoreGeo P_Build P_Reach2 P_Machine.
Import ListNotations.
Local Open Scope Z_scope.

Section Few.
Variable G : graph.
Hypothesis WF : wf_graph G.

(** A walk that visits the nodes [p] after the first one. *)
Inductive trail : nat -> list nat -> nat -> Z -> N -> Prop :=
| trail_here : forall a, trail a [] a 0 0%N
| trail_step : forall a x w o p b l o', In (Some x, w, o) (nbrs G a) -> trail x p b l o' -> trail a (x :: p) b (w + l) (N.lxor o o').

Lemma trail_walk : forall a p b l o, trail a p b l o -> walk G a b l o.
Proof.
  intros a p b l o H. induction H as [a|a x w o p b l o' Hin H IH]; [constructor|].
  exact (walk_app G a x b w l o o' (walk_one G a x w o Hin) IH).
Qed.
Lemma walk_trail : forall a b l o, walk G a b l o -> exists p l' o', trail a p b l' o'.
Proof.
  intros a b l o H. induction H as [|v l o x w ob H IH Hin]; [exists [], 0, 0%N; constructor|]. destruct IH as (p & l' & o' & T).
  assert (X : exists p l o, trail a p x l o).
  { clear -T Hin. induction T as [a|a y w0 o p b l o' H T IH]; [exists [x], (w + 0), (N.lxor ob 0); econstructor; [exact Hin|constructor]|].
    destruct (IH Hin) as (p1 & l1 & o1 & T1). exists (y :: p1), (w0 + l1), (N.lxor o o1). econstructor; eassumption. }
  exact X.
Qed.
Lemma trail_from : forall a p b l o, trail a p b l o -> forall c, In c (a :: p) -> NoDup (a :: p) -> exists p' l' o', trail c p' b l' o' /\ NoDup (c :: p') /\ incl (c :: p') (a :: p).
Proof.
  intros a p b l o H. induction H as [a|a x w o p b l o' Hin H IH]; intros c Hc ND.
  - destruct Hc as [<-|[]]. exists [], 0, 0%N. split; [constructor|]. split; [exact ND|apply incl_refl].
  - destruct Hc as [<-|Hc].
    + exists (x :: p), (w + l), (N.lxor o o'). split; [econstructor; eassumption|]. split; [exact ND|apply incl_refl].
    + apply NoDup_cons_iff in ND as [_ ND]. destruct (IH c Hc ND) as (p' & l' & o1 & T & N1 & I1). exists p', l', o1. split; [exact T|]. split; [exact N1|]. intros z Hz. right. now apply I1.
Qed.
Lemma trail_simple : forall a p b l o, trail a p b l o -> exists p' l' o', trail a p' b l' o' /\ NoDup (a :: p').
Proof.
  intros a p b l o H. induction H as [a|a x w o p b l o' Hin H IH]; [exists [], 0, 0%N; split; [constructor|constructor; [intros []|constructor]]|].
  destruct IH as (p' & l' & o1 & T & ND). destruct (in_dec Nat.eq_dec a (x :: p')) as [Ha|Ha].
  - destruct (trail_from x p' b l' o1 T a Ha ND) as (p2 & l2 & o2 & T2 & N2 & _). exists p2, l2, o2. auto.
  - exists (x :: p'), (w + l'), (N.lxor o o1). split; [econstructor; eassumption|]. now constructor.
Qed.
Variable W : Z.
Hypothesis HW : forall u x w o, In (x, w, o) (nbrs G u) -> w <= W.
Hypothesis W0 : 0 <= W.
Lemma trail_length : forall a p b l o, trail a p b l o -> l <= W * Z.of_nat (length p).
Proof. intros a p b l o H. induction H as [a|a x w o p b l o' Hin H IH]; cbn [length]; [lia|]. pose proof (HW _ _ _ _ Hin). rewrite Nat2Z.inj_succ. lia. Qed.
Lemma in_range : forall u e, In e (nbrs G u) -> (u < length G)%nat.
Proof. intros u e H. unfold nbrs in H. destruct (Nat.lt_ge_cases u (length G)); [assumption|]. rewrite nth_overflow in H by assumption. destruct H. Qed.
Lemma trail_range : forall a p b l o, trail a p b l o -> (a < length G)%nat -> forall v, In v (a :: p) -> (v < length G)%nat.
Proof.
  intros a p b l o H. induction H as [a|a x w o p b l o' Hin H IH]; intros Ha v Hv; [destruct Hv as [<-|[]]; assumption|]. destruct Hv as [<-|Hv]; [assumption|].
  apply IH; [|exact Hv]. apply (wf_sym _ WF) in Hin. exact (in_range _ _ Hin).
Qed.
Lemma short_walk : forall a b l o, (a < length G)%nat -> walk G a b l o -> exists l' o', walk G a b l' o' /\ l' + W <= W * Z.of_nat (length G).
Proof.
  intros a b l o Ha H. destruct (walk_trail a b l o H) as (p & l1 & o1 & T). destruct (trail_simple a p b l1 o1 T) as (p' & l' & o' & T' & ND). exists l', o'. split; [exact (trail_walk _ _ _ _ _ T')|].
  pose proof (trail_length _ _ _ _ _ T') as L. assert (N : (length (a :: p') <= length G)%nat).
  { rewrite <- (seq_length (length G) 0). apply NoDup_incl_length; [exact ND|]. intros v Hv. apply in_seq. pose proof (trail_range _ _ _ _ _ T' Ha v Hv). lia. }
  cbn [length] in N. nia.
Qed.
Lemma few_joined : forall D, W * Z.of_nat (length G) < D -> joined_within G D.
Proof.
  intros D HD a [b|] l o P.
  - destruct (Nat.lt_ge_cases a (length G)) as [Ha|Ha].
    + destruct (short_walk a b l o Ha P) as (l' & o' & P' & L). exists l', o'. split; [exact P'|lia].
    + assert (b = a) as ->; [|exists 0, 0%N; split; [constructor|nia]]. clear -P Ha. induction P as [|v l o x w ob P IH Hin]; [reflexivity|]. subst v. apply in_range in Hin. lia.
  - destruct P as (v & l1 & o1 & w & ob & P & Hin & El & Eo). destruct (Nat.lt_ge_cases a (length G)) as [Ha|Ha].
    + destruct (short_walk a v l1 o1 Ha P) as (l' & o' & P' & L). exists (l' + w), (N.lxor o' ob). split; [exists v, l', o', w, ob; auto|]. pose proof (HW _ _ _ _ Hin). lia.
    + exfalso. assert (v = a) as ->; [|apply in_range in Hin; lia]. clear -P Ha. induction P as [|v l o x w ob P IH Hin]; [reflexivity|]. subst v. apply in_range in Hin. lia.
Qed.
End Few.

Lemma joined_s_within : forall nobs n E g D, built nobs n E g -> joined_within (adj g) D -> s_within E D.
Proof.
  intros nobs n E g D HB HJ a x l P. destruct (s_path_path nobs n E g HB a x l P) as (l1 & o1 & P1 & _). destruct (HJ a x l1 o1 P1) as (l2 & o2 & P2 & L2). exists l2. split; [exact (path_s_path nobs n E g HB a x l2 o2 P2)|exact L2].
Qed.
