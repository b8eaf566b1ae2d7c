(** Invariants of the decoder's core, part 23: descendants and events of regions; walks as lists of edges. *)
From Coq Require Import ZArith NArith List Bool Arith Lia Permutation Sorting.Sorted.
From Verif Require Import M_Base M_Varying M_Tracker M_Core S_Core S_Tree P_Sum P_Dual P_Up P_Tree P_Tree2 P_Cycle P_CoreGeo P_CoreSched P_CoreArea P_CoreHit2.
Import ListNotations.
Local Open Scope Z_scope.

Lemma NoDup_flat : forall (X Y : Type) (f : X -> list Y) l, NoDup l -> (forall x, In x l -> NoDup (f x)) ->
  (forall x x' y, In x l -> In x' l -> In y (f x) -> In y (f x') -> x = x') -> NoDup (flat_map f l).
Proof.
  intros X Y f. induction l as [|a l IH]; intros N Hn Hd; simpl; [constructor|]. inversion N as [|? ? Ha Nl]; subst. apply NoDup_join.
  - apply Hn. now left.
  - apply IH; auto. + intros x Hx. apply Hn. now right. + intros x x' y Hx Hx'. apply Hd; now right.
  - intros y Hy Hy'. apply in_flat_map in Hy' as (x & Hx & Hxy). assert (a = x) by (apply (Hd a x y); auto; [now left|now right]). subst. contradiction.
Qed.
Lemma Perm_flat : forall (X Y : Type) (f : X -> list Y) l m, Permutation l m -> Permutation (flat_map f l) (flat_map f m).
Proof.
  intros X Y f l m H. induction H; simpl; auto.
  - now apply Permutation_app_head.
  - rewrite !app_assoc. apply Permutation_app_tail. apply Permutation_app_comm.
  - now transitivity (flat_map f l').
Qed.

Section Static.
Variables (G : graph) (ev : list nat) (n0 : nodesM) (g0 : regionsM) (ls : list nat) (y : nat -> Z) (ch : nat -> list nat).
Hypothesis WF : wf_graph G.
Hypothesis HG : geo G ev n0 g0 ls y ch.
Let U : up_ok (fun R => In R ls) (bpar g0) ch := g_up _ _ _ _ _ _ _ HG.

(** Descendants, events, what lies above. *)
Definition D (r : nat) : list nat := filter (fun Q => memb r (ch Q)) ls.
Definition E (r : nat) : list nat := filter (fun v => memb r (chn n0 ch v)) ev.
Definition above (r : nat) : Z := zsum y (ch r) - y r.

Lemma D_In : forall r Q, In Q (D r) <-> In Q ls /\ In r (ch Q).
Proof. intros r Q. unfold D. now rewrite filter_In, memb_In. Qed.
Lemma E_In : forall r v, In v (E r) <-> In v ev /\ In r (chn n0 ch v).
Proof. intros r v. unfold E. now rewrite filter_In, memb_In. Qed.
Lemma D_NoDup : forall r, NoDup (D r). Proof. intros r. apply NoDup_filter. apply (g_nd _ _ _ _ _ _ _ HG). Qed.
Lemma E_NoDup : forall r, NoDup (E r). Proof. intros r. apply NoDup_filter. apply (g_evnd _ _ _ _ _ _ _ HG). Qed.
Lemma D_self : forall r, In r ls -> In r (D r).
Proof. intros r Hr. apply D_In. split; [assumption|]. apply (up_self _ _ ch U r Hr). Qed.
Lemma D_ls : forall r, incl (D r) ls. Proof. intros r Q H. now apply D_In in H. Qed.
Lemma D_child : forall r x, In x ls -> bpar g0 x = Some r -> forall Q, In Q (D x) -> In Q (D r) /\ Q <> r.
Proof.
  intros r x Hx Ep Q HQ. apply D_In in HQ as [HQ HxQ]. assert (Hr : In r ls) by exact (proj2 (U x Hx) r Ep).
  assert (Hrx : In r (ch x)). { rewrite (up_eq _ _ ch U x Hx), Ep. right. apply (up_self _ _ ch U r Hr). }
  split; [apply D_In; split; [assumption|]; apply (up_trans _ _ ch U Q x r HQ HxQ Hrx)|]. intros ->.
  pose proof (up_antisym _ _ ch U r x Hr Hx Hrx HxQ) as Eq. subst x.
  pose proof (up_strict _ _ ch U r r r Hr Ep (up_self _ _ ch U r Hr)). lia.
Qed.
Lemma kids : forall r x, In r ls -> (In x (map fst (chl g0 r)) <-> In x ls /\ bpar g0 x = Some r).
Proof. intros r x Hr. apply (g_chl _ _ _ _ _ _ _ HG r x Hr). Qed.
Lemma D_kids_disjoint : forall r x x' Q, In x ls -> In x' ls -> bpar g0 x = Some r -> bpar g0 x' = Some r -> In Q (D x) -> In Q (D x') -> x = x'.
Proof.
  intros r x x' Q Hx Hx' E1 E2 H1 H2. apply D_In in H1 as [HQ H1]. apply D_In in H2 as [_ H2]. apply (up_child_unique _ _ ch U Q x x' r HQ H1 H2 E1 E2).
Qed.

Lemma D_perm : forall r, In r ls -> Permutation (D r) (r :: flat_map D (map fst (chl g0 r))).
Proof.
  intros r Hr. apply NoDup_Permutation; [apply D_NoDup| |].
  - constructor.
    + intros H. apply in_flat_map in H as (x & Hx & HD). apply (kids r x Hr) in Hx as [Hx Ex]. apply (D_child r x Hx Ex) in HD as [_ HD]. congruence.
    + apply NoDup_flat; [apply (g_chnd _ _ _ _ _ _ _ HG r Hr)|intros; apply D_NoDup|].
      intros x x' Q Hx Hx'. apply (kids r x Hr) in Hx as [Hx Ex]. apply (kids r x' Hr) in Hx' as [Hx' Ex']. apply (D_kids_disjoint r); assumption.
  - intros Q. simpl. rewrite in_flat_map. split.
    + intros H. destruct (Nat.eq_dec r Q) as [->|Hne]; [now left|]. right. apply D_In in H as [HQ H].
      destruct (up_child _ _ ch U Q HQ r H ltac:(congruence)) as (x & E1 & E2 & E3). exists x. split; [apply (kids r x Hr); now split|]. apply D_In. now split.
    + intros [<-|(x & Hx & H)]; [now apply D_self|]. apply (kids r x Hr) in Hx as [Hx Ex]. now apply (D_child r x Hx Ex).
Qed.
Lemma E_leaf_arr : forall v, In v ev -> exists R, arr n0 v = Some R /\ In R ls /\ chl g0 R = [].
Proof.
  intros v Hv. destruct (g_ev _ _ _ _ _ _ _ HG v Hv) as (Hl & R & E1 & E2 & _). exists R. repeat split; auto. apply (g_arr _ _ _ _ _ _ _ HG v R Hl E1).
Qed.
Lemma E_arr : forall r v, In v (E r) <-> In v ev /\ exists R, arr n0 v = Some R /\ In R (D r).
Proof.
  intros r v. rewrite E_In. unfold chn. split.
  - intros [Hv H]. split; [assumption|]. destruct (E_leaf_arr v Hv) as (R & E1 & E2 & _). rewrite E1 in H. exists R. split; [assumption|]. apply D_In. now split.
  - intros [Hv (R & E1 & H)]. split; [assumption|]. rewrite E1. now apply D_In in H.
Qed.
Lemma E_perm : forall r, In r ls -> chl g0 r <> [] -> Permutation (E r) (flat_map E (map fst (chl g0 r))).
Proof.
  intros r Hr Hc. apply NoDup_Permutation; [apply E_NoDup| |].
  - apply NoDup_flat; [apply (g_chnd _ _ _ _ _ _ _ HG r Hr)|intros; apply E_NoDup|].
    intros x x' v Hx Hx' H1 H2. apply (kids r x Hr) in Hx as [Hx Ex]. apply (kids r x' Hr) in Hx' as [Hx' Ex'].
    apply E_arr in H1 as (_ & R & A1 & D1). apply E_arr in H2 as (_ & R' & A2 & D2). assert (R' = R) by congruence. subst R'.
    apply (D_kids_disjoint r x x' R); assumption.
  - intros v. rewrite in_flat_map. split.
    + intros H. apply E_arr in H as (Hv & R & A & H). destruct (E_leaf_arr v Hv) as (R' & A' & _ & C). assert (R' = R) by congruence. subst R'.
      apply (Permutation_in _ (D_perm r Hr)) in H as [->|H]; [contradiction|]. apply in_flat_map in H as (x & Hx & H). exists x. split; [assumption|]. apply E_arr. eauto.
    + intros (x & Hx & H). apply (kids r x Hr) in Hx as [Hx Ex]. apply E_arr in H as (Hv & R & A & H). apply E_arr. split; [assumption|]. exists R. split; [assumption|]. now apply (D_child r x Hx Ex).
Qed.
Lemma D_leaf : forall r, In r ls -> chl g0 r = [] -> D r = [r].
Proof.
  intros r Hr Hc. pose proof (D_perm r Hr) as P. rewrite Hc in P. simpl in P. now apply Permutation_length_1_inv, Permutation_sym in P || (symmetry in P; apply Permutation_length_1_inv in P).
Qed.
Lemma E_leaf : forall r a, In r ls -> chl g0 r = [] -> In a (E r) -> E r = [a].
Proof.
  intros r a Hr Hc Ha. destruct (g_leaf _ _ _ _ _ _ _ HG r Hr Hc) as (l & s & E1 & E2 & E3).
  assert (X : forall v, In v (E r) -> v = s).
  { intros v Hv. apply E_arr in Hv as (Hv & R & A & HR). rewrite (D_leaf r Hr Hc) in HR. destruct HR as [->|[]].
    assert (Hi : In v (shl g0 R)) by (apply (g_shl _ _ _ _ _ _ _ HG R v Hr); split; [apply (ev_lt G _ _ _ _ _ _ HG v Hv)|assumption]).
    rewrite E1 in Hi. apply in_app_or in Hi as [Hi|[<-|[]]]; [|reflexivity]. exfalso. apply (E3 v Hi Hv). }
  pose proof (E_NoDup r) as N. destruct (E r) as [|v [|v' l']]; [destruct Ha| |].
  - destruct Ha as [->|[]]. reflexivity.
  - exfalso. inversion N as [|? ? N1 _]; subst. apply N1. rewrite (X v), (X v'); [now left|now right; left|now left].
Qed.
Lemma above_child : forall r x, In x ls -> bpar g0 x = Some r -> above x = above r + y r.
Proof. intros r x Hx Ex. unfold above. rewrite (up_eq _ _ ch U x Hx), Ex. cbn [zsum]. lia. Qed.
Lemma above_top : forall r, In r ls -> bpar g0 r = None -> above r = 0.
Proof. intros r Hr Er. unfold above. rewrite (up_eq _ _ ch U r Hr), Er. cbn [zsum]. lia. Qed.

(** Shells of different regions are disjoint. *)
Lemma shl_arr : forall R v, In R ls -> In v (shl g0 R) -> (v < length G)%nat /\ arr n0 v = Some R.
Proof. intros R v HR. apply (g_shl _ _ _ _ _ _ _ HG R v HR). Qed.
End Static.
