(** Weak duality: a feasible system of moats bounds the weight of every correction from below. *)
From Coq Require Import ZArith NArith List Bool Arith Lia.
From Verif Require Import M_Core S_Core P_Sum.
Import ListNotations.
Local Open Scope Z_scope.

(** Parity of the number of ends, in a set of nodes, of the edges of a correction. *)
Definition b2n (b : bool) : nat := if b then 1%nat else 0%nat.
Fixpoint nsum {A} (f : A -> nat) (l : list A) : nat :=
  match l with [] => 0%nat | a :: l' => (f a + nsum f l')%nat end.
Lemma nsum_app : forall A (f : A -> nat) l l', nsum f (l ++ l') = (nsum f l + nsum f l')%nat.
Proof. induction l; intros; simpl; [reflexivity|]. rewrite IHl. lia. Qed.
Lemma nsum_add : forall A (f g : A -> nat) l, nsum (fun a => f a + g a)%nat l = (nsum f l + nsum g l)%nat.
Proof. induction l; simpl; lia. Qed.
Lemma nsum_ext : forall A (f g : A -> nat) l, (forall a, In a l -> f a = g a) -> nsum f l = nsum g l.
Proof. induction l; intros H; simpl; [reflexivity|]. rewrite H, IHl; auto with datatypes. Qed.
Lemma nsum_0 : forall A (f : A -> nat) l, (forall a, In a l -> f a = 0%nat) -> nsum f l = 0%nat.
Proof. induction l; intros H; simpl; [reflexivity|]. rewrite H, IHl; auto with datatypes. Qed.
Lemma nsum_single : forall (x N : nat) (c : nat), (x < N)%nat ->
  nsum (fun v => if (x =? v)%nat then c else 0%nat) (seq 0 N) = c.
Proof.
  intros x N c Hx. replace N with (x + S (N - x - 1))%nat by lia. rewrite seq_app, nsum_app. simpl.
  rewrite Nat.eqb_refl. rewrite !nsum_0; [lia| |].
  - intros a Ha. apply in_seq in Ha. destruct (Nat.eqb_spec x a); [lia|reflexivity].
  - intros a Ha. apply in_seq in Ha. destruct (Nat.eqb_spec x a); [lia|reflexivity].
Qed.
Lemma odd_add_cong : forall a b c d, Nat.odd a = Nat.odd c -> Nat.odd b = Nat.odd d -> Nat.odd (a + b) = Nat.odd (c + d).
Proof. intros. rewrite !Nat.odd_add. congruence. Qed.
Lemma odd_nsum_cong : forall A (f g : A -> nat) l, (forall a, In a l -> Nat.odd (f a) = Nat.odd (g a)) ->
  Nat.odd (nsum f l) = Nat.odd (nsum g l).
Proof. induction l; intros H; simpl; [reflexivity|]. apply odd_add_cong; auto with datatypes. Qed.

Definition inU (g : nat -> bool) (x : option nat) : bool := match x with Some v => g v | None => false end.
Definition ends_in (g : nat -> bool) (e : edge) : nat :=
  let '(u, x, _, _) := e in (b2n (g u) + b2n (inU g x))%nat.

Definition edge_below (N : nat) (e : edge) : Prop :=
  let '(u, x, _, _) := e in (u < N)%nat /\ match x with Some v => (v < N)%nat | None => True end.

Lemma ends_count : forall g N F, Forall (edge_below N) F ->
  nsum (ends_in g) F = nsum (fun v => if g v then degree v F else 0%nat) (seq 0 N).
Proof.
  intros g N F HF. induction HF as [|[[[u x] w] o] F [Hu Hx] HF IH]; simpl.
  - symmetry. apply nsum_0. intros. now destruct (g a).
  - rewrite IH.
    transitivity (nsum (fun v => (if (u =? v)%nat then b2n (g u) else 0) +
        ((match x with Some v' => if (v' =? v)%nat then b2n (g v') else 0 | None => 0 end) +
        (if g v then degree v F else 0)))%nat (seq 0 N)).
    + rewrite !nsum_add, nsum_single by assumption.
      destruct x as [v'|]; simpl.
      * rewrite nsum_single by assumption. lia.
      * rewrite (nsum_0 _ (fun _ => 0%nat)) by auto. lia.
    + apply nsum_ext. intros v _.
      destruct (Nat.eqb_spec u v) as [->|]; destruct x as [v'|]; try destruct (Nat.eqb_spec v' v) as [->|];
        destruct (g v); simpl; lia.
Qed.

Lemma filter_count : forall g evs N, NoDup evs -> (forall s, In s evs -> (s < N)%nat) ->
  length (filter g evs) = nsum (fun v => if g v then b2n (existsb (Nat.eqb v) evs) else 0%nat) (seq 0 N).
Proof.
  intros g evs N Hnd. induction Hnd as [|s evs Hni Hnd IH]; intros HN; simpl.
  - symmetry. apply nsum_0. intros. now destruct (g a).
  - transitivity (nsum (fun v => (if (s =? v)%nat then b2n (g s) else 0) +
       (if g v then b2n (existsb (Nat.eqb v) evs) else 0))%nat (seq 0 N)).
    + rewrite nsum_add, nsum_single by auto with datatypes. rewrite <- IH by auto with datatypes.
      destruct (g s); reflexivity.
    + apply nsum_ext. intros v _. destruct (Nat.eqb_spec s v) as [->|Hne].
      * rewrite Nat.eqb_refl. simpl. destruct (g v) eqn:Hg; simpl; [|reflexivity].
        destruct (existsb (Nat.eqb v) evs) eqn:E; [|reflexivity].
        apply existsb_exists in E as [z [Hz Hzz]]. apply Nat.eqb_eq in Hzz. subst. contradiction.
      * destruct (Nat.eqb_spec v s); [congruence|]. reflexivity.
Qed.

Lemma bound_exists : forall (F : list edge) (evs : list nat),
  exists N, Forall (edge_below N) F /\ forall s, In s evs -> (s < N)%nat.
Proof.
  intros F evs.
  assert (HF : exists N, Forall (edge_below N) F).
  { induction F as [|[[[u x] w] o] F [N IH]]; [now exists 0%nat|].
    exists (S (N + u + match x with Some v => v | None => 0 end)). constructor.
    - simpl. destruct x; lia.
    - eapply Forall_impl; [|exact IH]. intros [[[u' x'] w'] o']; simpl. destruct x', x; lia. }
  assert (HE : exists N, forall s, In s evs -> (s < N)%nat).
  { clear. induction evs as [|s evs [N IH]]; [exists 0%nat; contradiction|].
    exists (S (N + s)). intros z [<-|Hz]; [lia|]. apply IH in Hz. lia. }
  destruct HF as [N1 H1], HE as [N2 H2]. exists (N1 + N2)%nat. split.
  - eapply Forall_impl; [|exact H1]. intros [[[u' x'] w'] o']; simpl. destruct x'; lia.
  - intros s Hs. apply H2 in Hs. lia.
Qed.

(** The handshake lemma for a set of nodes. *)
Lemma handshake : forall g (F : list edge) evs,
  NoDup evs -> (forall v, Nat.odd (degree v F) = true <-> In v evs) ->
  Nat.odd (nsum (ends_in g) F) = Nat.odd (length (filter g evs)).
Proof.
  intros g F evs Hnd Hdeg. destruct (bound_exists F evs) as [N [HF HN]].
  rewrite (ends_count g N F HF), (filter_count g evs N Hnd HN). apply odd_nsum_cong. intros v _.
  destruct (g v); [|reflexivity].
  destruct (existsb (Nat.eqb v) evs) eqn:E; simpl.
  - apply Hdeg. apply existsb_exists in E as [z [Hz Hzz]]. apply Nat.eqb_eq in Hzz. now subst.
  - destruct (Nat.odd (degree v F)) eqn:O; [|reflexivity]. apply Hdeg in O.
    assert (existsb (Nat.eqb v) evs = true) by (apply existsb_exists; exists v; split; [assumption|apply Nat.eqb_refl]).
    congruence.
Qed.

(** A closed set of nodes with an odd number of events cannot be explained. *)
Lemma closed_odd_infeasible : forall G F evs g, NoDup evs -> explains G F evs ->
  (forall u x w o, In (x, w, o) (nbrs G u) -> g u = inU g x) -> (* no edge leaves the set *)

  Nat.odd (length (filter g evs)) = true -> False.
Proof.
  intros G F evs g Hnd [HF Hdeg] Hclosed Hodd. rewrite <- (handshake g F evs Hnd Hdeg) in Hodd.
  assert (H : Nat.odd (nsum (ends_in g) F) = false).
  { clear - HF Hclosed. induction HF as [|[[[u x] w] o] F [Hin _] HF IH]; [reflexivity|]. simpl.
    rewrite Nat.odd_add, IH. rewrite (Hclosed u x w o Hin). destruct (inU g x); reflexivity. }
  congruence.
Qed.

(** One moat: a function on the nodes with values in [0, Y]. *)
Section Moat.
Variable phi : option nat -> Z.
Variable Y : Z.
Hypothesis phi_range : forall x, 0 <= phi x <= Y.
Hypothesis phi_bnd : phi None = Y.

Definition cross (k : nat) (e : edge) : Z :=
  let '(u, x, _, _) := e in
  if xorb (phi (Some u) <? Z.of_nat k + 1) (phi x <? Z.of_nat k + 1) then 1 else 0.
Definition gap (e : edge) : Z := let '(u, x, _, _) := e in Z.abs (phi (Some u) - phi x).

Lemma cross_le_gap : forall n e, Z.of_nat n <= Y -> zsum (fun k => cross k e) (seq 0 n) <= gap e.
Proof.
  intros n [[[u x] w] o] _. unfold gap, cross.
  generalize (phi (Some u)) (phi_range (Some u)) (phi x) (phi_range x). intros a Ha b Hb.
  assert (H : zsum (fun k => if xorb (a <? Z.of_nat k + 1) (b <? Z.of_nat k + 1) then 1 else 0) (seq 0 n)
              = Z.abs (Z.min a (Z.of_nat n) - Z.min b (Z.of_nat n))).
  { induction n.
    - simpl. lia.
    - rewrite seq_S, zsum_app, IHn. cbn [zsum plus]. 
      destruct (Z.ltb_spec a (Z.of_nat n + 1)), (Z.ltb_spec b (Z.of_nat n + 1)); cbn [xorb]; lia. }
  rewrite H. lia.
Qed.

Lemma cross_odd : forall k F evs ins, NoDup evs ->
  (forall v, Nat.odd (degree v F) = true <-> In v evs) ->
  (forall s, In s evs -> phi (Some s) = if ins s : bool then 0 else Y) ->
  Nat.odd (length (filter ins evs)) = true -> Z.of_nat k < Y ->
  1 <= zsum (cross k) F.
Proof.
  intros k F evs ins Hnd Hdeg Hev Hodd Hk.
  set (g := fun v => phi (Some v) <? Z.of_nat k + 1).
  assert (Hg : filter g evs = filter ins evs).
  { apply filter_ext_in. intros s Hs. unfold g. rewrite (Hev s Hs). destruct (ins s); destruct (Z.ltb_spec 0 (Z.of_nat k + 1));
     try destruct (Z.ltb_spec Y (Z.of_nat k + 1)); try reflexivity; lia. }
  rewrite <- Hg, <- (handshake g F evs Hnd Hdeg) in Hodd.
  assert (H : forall F, 0 <= zsum (cross k) F /\ (zsum (cross k) F = 0 -> Nat.odd (nsum (ends_in g) F) = false)).
  { clear - phi_bnd Hk. induction F as [|[[[u x] w] o] F [IH1 IH2]]; [simpl; split; [lia|reflexivity]|].
    cbn [zsum nsum].
    change (cross k (u, x, w, o)) with (if xorb (phi (Some u) <? Z.of_nat k + 1) (phi x <? Z.of_nat k + 1) then 1 else 0).
    change (ends_in g (u, x, w, o)) with (b2n (g u) + b2n (inU g x))%nat.
    assert (Hx : inU g x = (phi x <? Z.of_nat k + 1)).
    { destruct x; [reflexivity|]. simpl. rewrite phi_bnd. symmetry. apply Z.ltb_ge. lia. }
    change (phi (Some u) <? Z.of_nat k + 1) with (g u). rewrite <- Hx.
    destruct (g u), (inU g x); cbn [xorb b2n].
    - split; [lia|]. intros. rewrite Nat.odd_add. rewrite IH2 by lia. reflexivity.
    - split; [lia|]. intros; lia.
    - split; [lia|]. intros; lia.
    - split; [lia|]. intros. rewrite Nat.odd_add. rewrite IH2 by lia. reflexivity. }
  destruct (H F) as [H1 H2]. destruct (Z.eq_dec (zsum (cross k) F) 0) as [E|]; [|lia].
  rewrite (H2 E) in Hodd. discriminate.
Qed.

Lemma moat_bound : forall F evs ins, NoDup evs ->
  (forall v, Nat.odd (degree v F) = true <-> In v evs) ->
  (forall s, In s evs -> phi (Some s) = if ins s : bool then 0 else Y) ->
  Nat.odd (length (filter ins evs)) = true ->
  Y <= zsum gap F.
Proof.
  intros F evs ins Hnd Hdeg Hev Hodd.
  assert (HY : 0 <= Y) by (specialize (phi_range None); lia).
  transitivity (zsum (fun e => zsum (fun k => cross k e) (seq 0 (Z.to_nat Y))) F).
  - rewrite zsum_swap.
    transitivity (zsum (fun _ => 1) (seq 0 (Z.to_nat Y))).
    + assert (forall n s, zsum (fun _ : nat => 1) (seq s n) = Z.of_nat n).
      { clear. induction n; intros; cbn [seq zsum]; [reflexivity|]. rewrite IHn. lia. }
      rewrite H. lia.
    + apply zsum_le. intros k Hk. apply in_seq in Hk.
      apply (cross_odd k F evs ins); auto. lia.
  - apply zsum_le. intros e _. apply cross_le_gap. lia.
Qed.
End Moat.

(** All moats together. *)
Lemma weak_duality : forall (regions : list nat) (phi : nat -> option nat -> Z) (Y : nat -> Z) (ins : nat -> nat -> bool)
    (F : list edge) (evs : list nat),
  NoDup evs ->
  (forall v, Nat.odd (degree v F) = true <-> In v evs) ->
  (forall R, In R regions -> forall x, 0 <= phi R x <= Y R) ->
  (forall R, In R regions -> phi R None = Y R) ->
  (forall R, In R regions -> forall s, In s evs -> phi R (Some s) = if ins R s then 0 else Y R) ->
  (forall R, In R regions -> Nat.odd (length (filter (ins R) evs)) = true) ->
  (forall u x w o, In (u, x, w, o) F -> zsum (fun R => Z.abs (phi R (Some u) - phi R x)) regions <= w) ->
  zsum Y regions <= weight_of F.
Proof.
  intros regions phi Y ins F evs Hnd Hdeg Hr Hb He Ho Hw.
  transitivity (zsum (fun R => zsum (gap (phi R)) F) regions).
  - apply zsum_le. intros R HR. apply (moat_bound (phi R) (Y R)) with (evs := evs) (ins := ins R); auto.
  - rewrite zsum_swap. clear - Hw. induction F as [|[[[u x] w] o] F IH]; [simpl; lia|].
    cbn [zsum weight_of]. specialize (IH (fun u x w o H => Hw u x w o (or_intror H))).
    specialize (Hw u x w o (or_introl eq_refl)). unfold gap at 1. lia.
Qed.
