From Coq Require Import ZArith List Permutation Sorted Lia Bool.
From Verif Require Import M_Base M_Cyclic P_Cyclic M_RadixHeap S_RadixHeap P_RadixHeap M_QueueList.
Import ListNotations.
Open Scope Z_scope.

Section QueueList.
Variable w : Z.
Hypothesis Hw : 1 <= w.
Variable D : Type.

(** Insertion with unbounded times. *)
Fixpoint put (e : Z * D) (l : list (Z * D)) : list (Z * D) :=
  match l with [] => [e] | x :: l' => if fst x <? fst e then x :: put e l' else e :: l end.
Definition arranged (l : list (Z * D)) : list (Z * D) := fold_right put [] l.
Lemma put_perm : forall e l, Permutation (put e l) (e :: l).
Proof. intros e. induction l as [|x l IH]; [reflexivity|]. cbn. destruct (_ <? _); [|reflexivity]. rewrite IH. apply perm_swap. Qed.
Lemma arranged_perm : forall l, Permutation (arranged l) l.
Proof. induction l as [|x l IH]; [reflexivity|]. cbn. rewrite put_perm. now constructor. Qed.
Lemma put_sorted : forall e l, StronglySorted (fun a b => fst a <= fst b) l -> StronglySorted (fun a b => fst a <= fst b) (put e l).
Proof.
  intros e. induction l as [|x l IH]; intros H; [repeat constructor|]. inversion H as [|a b H1 H2]; subst. cbn. destruct (Z.ltb_spec (fst x) (fst e)) as [L|L].
  - constructor; [auto|]. rewrite Forall_forall in *. intros y Hy. apply (Permutation_in _ (put_perm e l)) in Hy as [<-|Hy]; [lia|auto].
  - constructor; [exact H|]. rewrite Forall_forall in *. intros y [<-|Hy]; [lia|]. specialize (H2 y Hy). lia.
Qed.
Lemma arranged_sorted : forall l, StronglySorted (fun a b => fst a <= fst b) (arranged l).
Proof. induction l as [|x l IH]; [constructor|]. cbn. now apply put_sorted. Qed.

Definition near (n : Z) (l : list (Z * D)) : Prop := forall x, In x l -> n <= fst x < n + 2 ^ (w - 1).
Lemma insert_put : forall n e l, near n (e :: l) -> insert w D (trunc w D e) (map (trunc w D) l) = map (trunc w D) (put e l).
Proof.
  intros n e. induction l as [|x l IH]; intros H; [reflexivity|]. cbn [map insert put]. unfold trunc at 1 2. cbn [ev_time].
  destruct (cyc_order w (fst x) (fst e) Hw) as (-> & _).
  - pose proof (H x (or_intror (or_introl eq_refl))). pose proof (H e (or_introl eq_refl)). lia.
  - destruct (_ <? _); [|reflexivity]. cbn [map]. rewrite IH; [reflexivity|]. intros y [<-|Hy]; apply H; cbn; auto.
Qed.
Lemma sort_arranged : forall n l, near n l -> sort w D (map (trunc w D) l) = map (trunc w D) (arranged l).
Proof.
  intros n. induction l as [|x l IH]; intros H; [reflexivity|]. cbn [map sort fold_right arranged]. fold (sort w D (map (trunc w D) l)). rewrite IH by (intros y Hy; apply H; now right).
  fold (arranged l). apply (insert_put n). intros y [<-|Hy]; apply H; [now left|]. right. now apply (Permutation_in _ (arranged_perm l)).
Qed.
Lemma flat_map_trunc : forall (A : nat -> list (Z * D)) f l, (forall b, f b = map (trunc w D) (A b)) -> flat_map f l = map (trunc w D) (flat_map A l).
Proof. intros A f l H. induction l as [|b l IH]; [reflexivity|]. cbn. rewrite map_app, <- IH, H. reflexivity. Qed.
Lemma filter_all : forall {X} (p : X -> bool) l, (forall x, In x l -> p x = true) -> filter p l = l.
Proof. intros X p. induction l as [|x l IH]; intros H; [reflexivity|]. cbn. rewrite H by now left. f_equal. apply IH. intros y Hy. apply H. now right. Qed.
Lemma filter_none : forall {X} (p : X -> bool) l, (forall x, In x l -> p x = false) -> filter p l = [].
Proof. intros X p. induction l as [|x l IH]; intros H; [reflexivity|]. cbn. rewrite H by now left. apply IH. intros y Hy. apply H. now right. Qed.
Lemma filter_perm : forall {X} (p : X -> bool) l l', Permutation l l' -> Permutation (filter p l) (filter p l').
Proof. intros X p l l' H. induction H as [|x l l' H IH|x y l|l l' l'' H1 IH1 H2 IH2]; [constructor| | |etransitivity; eassumption]; cbn; [destruct (p x); [now constructor|exact IH]|]. destruct (p x), (p y); try reflexivity. apply perm_swap. Qed.

(** Whether a time is in the half of the period that the present is in. *)
Definition this_half (n : Z) (x : Z * D) : bool := fst x / 2 ^ (w - 1) =? n / 2 ^ (w - 1).
Lemma bucket_half : forall n t, n <= t < n + 2 ^ (w - 1) -> (bucket_for w n (wrap w t) < Z.to_nat w)%nat <-> t / 2 ^ (w - 1) = n / 2 ^ (w - 1).
Proof.
  intros n t H. destruct (bucket_char w Hw n t H) as [[-> ->]|(k & Hk & -> & E & F)]; [split; [reflexivity|lia]|]. destruct (Z.eq_dec k (w - 1)) as [->|N].
  - split; intros G; [lia|lia].
  - split; intros _; [apply F; lia|lia].
Qed.
Lemma listing : forall q s, Rep w D q s ->
  exists l, StronglySorted (fun a b => fst a <= fst b) l /\ Permutation l (filter (this_half (now s)) (pending s)) /\ to_vector w D q = map (trunc w D) l.
Proof.
  intros q s (Hc & A & HA & Hin & HP & Hn). set (m := flat_map A (seq 0 (Z.to_nat w))).
  assert (IN : forall x, In x m -> now s <= fst x < now s + 2 ^ (w - 1) /\ this_half (now s) x = true).
  { intros [t d] Hx. apply in_flat_map in Hx as (b & Hb & Hx). apply in_seq in Hb. destruct (Hin b t d Hx) as [B E]. split; [exact B|]. unfold this_half. cbn [fst]. apply Z.eqb_eq. apply (bucket_half _ _ B). lia. }
  exists (arranged m). split; [apply arranged_sorted|]. split.
  - rewrite arranged_perm. rewrite (filter_perm _ _ _ HP). unfold range. rewrite seq_app, flat_map_app, filter_app. fold m. rewrite (filter_all _ m) by (intros x Hx; now apply IN). cbn [seq flat_map Nat.add]. rewrite app_nil_r.
    rewrite filter_none; [rewrite app_nil_r; reflexivity|]. intros [t d] Hx. destruct (Hin _ t d Hx) as [B E]. unfold this_half. cbn [fst]. apply Z.eqb_neq. intros F. apply (bucket_half _ _ B) in F. lia.
  - unfold to_vector, to_vector_unsorted. rewrite (flat_map_trunc A) by exact HA. fold m. apply (sort_arranged (now s)). intros x Hx. now apply IN.
Qed.
Lemma invariants : forall q s, Rep w D q s -> satisfies_invariants w D q = true.
Proof.
  intros q s (Hc & A & HA & Hin & _). unfold satisfies_invariants. apply forallb_forall. intros b _. apply forallb_forall. intros e He. rewrite HA in He. apply in_map_iff in He as ([t d] & <- & Hx).
  cbn [trunc ev_time fst]. rewrite Hc. apply Nat.eqb_eq. now apply (Hin b t d).
Qed.
Lemma queue_listing : forall ops, contract w (2 ^ (w - 1)) (empty_queue D) ops ->
  exists outs q' s', exec w D (empty_queue D) ops = Ok (outs, q') /\ pq_run (2 ^ (w - 1)) (mkPQ 0 []) ops outs s' /\ satisfies_invariants w D q' = true /\
    exists l, StronglySorted (fun a b => fst a <= fst b) l /\ Permutation l (filter (fun x => fst x / 2 ^ (w - 1) =? now s' / 2 ^ (w - 1)) (pending s')) /\
      to_vector w D q' = map (fun x => mkEv (fst x mod 2 ^ w) (snd x)) l.
Proof.
  intros ops C. destruct (exec_refines w Hw D ops _ _ (rep_empty w D) C) as (outs & q' & s' & E & P & R). exists outs, q', s'. split; [exact E|]. split; [exact P|]. split; [exact (invariants q' s' R)|]. exact (listing q' s' R).
Qed.
End QueueList.
Lemma check_exact : forall (w : Z) (D : Type) (q : queue D),
  satisfies_invariants w D q = true <-> forall b e, Z.of_nat b < w -> In e (buckets q b) -> bucket_for w (cur_time q) (ev_time e) = b.
Proof.
  intros w D q. unfold satisfies_invariants. rewrite forallb_forall. split.
  - intros H b e Hb He. specialize (H b). rewrite forallb_forall in H. apply Nat.eqb_eq, H; [apply in_seq; lia|exact He].
  - intros H b Hb. apply in_seq in Hb. apply forallb_forall. intros e He. apply Nat.eqb_eq. apply H; [lia|exact He].
Qed.
