(** Termination, part 2: regions' areas and speeds. *)
From Coq Require Import ZArith NArith List Bool Arith Lia Permutation.
From Verif Require Import M_Base M_Varying M_Tracker M_Core S_Core P_Sum P_Up P_Tree P_Ends P_CoreGeo P_CoreSched P_CoreArea P_CoreRad.
Import ListNotations.
Local Open Scope nat_scope.

(** ** Areas *)
Definition below (ch : nat -> list (nat * cedge)) (c p : nat) : Prop := In c (map fst (ch p)).

Lemma descendants_stops : forall g r, Acc (below (chl g)) r -> forall d, exists K l, forall f, K <= f -> descendants (f - d) g r = Ok l.
Proof.
  intros g r H. induction H as [r _ IH]. intros d.
  assert (F : forall post acc, (forall x, In x post -> In x (chl g r)) -> exists K l, forall f, K <= f ->
    fold_left (fun acc c => bindO acc (fun l => bindO (descendants (f - S d) g (fst c)) (fun l' => Ok (l ++ l')))) post (Ok acc) = Ok l).
  { induction post as [|x post IHp]; intros acc Hi; [exists 0, acc; auto|].
    destruct (IH (fst x) (in_map fst _ _ (Hi x (or_introl eq_refl))) (S d)) as (K1 & l1 & H1).
    destruct (IHp (acc ++ l1) (fun y Hy => Hi y (or_intror Hy))) as (K2 & l2 & H2).
    exists (Nat.max K1 K2), l2. intros f Hf. cbn [fold_left bindO]. rewrite H1 by lia. cbn [bindO]. apply H2. lia. }
  destruct (F (chl g r) [r] (fun x Hx => Hx)) as (K & l & H). exists (Nat.max K (S d)), l. intros f Hf.
  destruct (f - d) as [|k] eqn:E; [lia|]. cbn [descendants]. assert (Ek : k = f - S d) by lia. rewrite Ek. apply H. lia.
Qed.
Lemma area_stops : forall s r, Acc (below (chl (rg s))) r -> exists K l, forall f, K <= f -> total_area f s r = Ok l.
Proof.
  intros s r H. destruct (descendants_stops (rg s) r H 0) as (K & l & E). exists K, (flat_map (shl (rg s)) l). intros f Hf. unfold total_area.
  specialize (E f Hf). rewrite Nat.sub_0_r in E. rewrite E. reflexivity.
Qed.

Section Halt.
Variable G : graph.
Variable A : ints.

Lemma growing_stops : forall s r, Acc (below (chl (rg s))) r -> stops (fun f => set_region_growing G f A s r).
Proof.
  intros s r H. unfold set_region_growing. set (s2 := unwant_region _ _). assert (H2 : Acc (below (chl (rg s2))) r) by exact H.
  destruct (area_stops s2 r H2) as (K & l & E). exists K, (Ok (reschedule_all G A s2 l)). split; [discriminate|]. intros f Hf. now rewrite E.
Qed.
Lemma frozen_stops : forall s r, Acc (below (chl (rg s))) r -> stops (fun f => set_region_frozen G f A s r).
Proof.
  intros s r H. unfold set_region_frozen. destruct (is_shrinking _); [|apply stops_ok]. set (s2 := unwant_region _ _). assert (H2 : Acc (below (chl (rg s2))) r) by exact H.
  destruct (area_stops s2 r H2) as (K & l & E). exists K, (Ok (reschedule_all G A s2 l)). split; [discriminate|]. intros f Hf. now rewrite E.
Qed.
Lemma chl_shrink : forall s r, chl (rg (schedule_shrink A s r)) = chl (rg s).
Proof.
  intros s r. unfold schedule_shrink, want_region. destruct (set_desired _ _ _) as [x new]. generalize (set_sc s (set_rtr (sc s) r x)) (eq_refl (chl (rg s)) : chl (rg (set_sc s (set_rtr (sc s) r x))) = chl (rg s)).
  induction new as [|t new IH]; intros s1 E1; cbn [fold_left]; [assumption|]. apply IH. exact E1.
Qed.
Lemma shrinking_stops : forall s r, Acc (below (chl (rg s))) r -> stops (fun f => set_region_shrinking f A s r).
Proof.
  intros s r H. unfold set_region_shrinking. set (s1 := set_rg s _). set (s2 := schedule_shrink _ _ _).
  assert (H2 : Acc (below (chl (rg s2))) r) by (unfold s2; rewrite chl_shrink; exact H).
  destruct (area_stops s2 r H2) as (K & l & E). exists K, (Ok (fold_left unwant_node l s2)). split; [discriminate|]. intros f Hf. now rewrite E.
Qed.

End Halt.

Lemma acc_agree : forall (L : nat -> Prop) ch1 ch2, (forall x, L x -> ch2 x = ch1 x) -> (forall x q, L x -> In q (map fst (ch1 x)) -> L q) ->
  forall r, Acc (below ch1) r -> L r -> Acc (below ch2) r.
Proof.
  intros L ch1 ch2 H1 H2 r H. induction H as [r _ IH]. intros Hr. constructor. intros c Hc. unfold below in Hc. rewrite (H1 r Hr) in Hc. apply IH; [exact Hc|]. eapply H2; eauto.
Qed.
(** In a state in order, children are finitely deep. *)
Lemma geo_acc : forall G ev n g ls y ch, geo G ev n g ls y ch -> forall r, In r ls -> Acc (below (chl g)) r.
Proof.
  intros G ev n g ls y ch HG. pose proof (g_up _ _ _ _ _ _ _ HG) as U.
  assert (B : forall r, In r ls -> length (ch r) <= length ls).
  { intros r Hr. apply NoDup_incl_length; [exact (up_NoDup _ _ ch U r Hr)|]. intros x Hx. exact (up_all_L _ _ ch U r Hr x Hx). }
  assert (W : forall k r, In r ls -> length ls - length (ch r) < k -> Acc (below (chl g)) r).
  { induction k as [|k IH]; intros r Hr Hk; [lia|]. constructor. intros c Hc. unfold below in Hc. apply (g_chl _ _ _ _ _ _ _ HG r c Hr) in Hc as [Hc1 Hc2].
    apply IH; [assumption|]. pose proof (B c Hc1). pose proof (up_eq _ _ ch U c Hc1) as E. rewrite Hc2 in E. apply (f_equal (@length nat)) in E. cbn [length] in E. lia. }
  intros r Hr. apply (W (S (length ls - length (ch r))) r Hr). lia.
Qed.
Lemma Geo_acc : forall G ev s ls ch, Geo G ev s ls ch -> forall r, In r ls -> Acc (below (chl (rg s))) r.
Proof. intros G ev s ls ch [HG _]. eapply geo_acc. exact HG. Qed.

Lemma set_region_growing_ends : forall G, wf_graph G -> forall {NI : ints} ev {FI : fine NI G ev} s ls ch (D X : nat -> Prop) r, Geo G ev s ls ch -> sched G ls D X s -> In r ls -> bpar (rg s) r = None -> par_ok ev s ch r ->
  ends (fun f => set_region_growing G f NI s r) (fun s' => radded s r (1)%Z s' /\ Geo G ev s' ls ch /\ sched G ls (clean s D r) (fun r' => X r' /\ r' <> r) s').
Proof.
  intros G WF NI ev FI s ls ch D X r HG HQ Hr Hb Hp. split; [apply growing_stops, (Geo_acc _ _ _ _ _ HG r Hr)|].
  intros f. exact (set_region_growing_spec G WF f ev s ls ch D X r HG HQ Hr Hb Hp).
Qed.
Lemma set_region_shrinking_ends : forall G, wf_graph G -> forall {NI : ints} ev {FI : fine NI G ev} s ls ch (D X : nat -> Prop) r, Geo G ev s ls ch -> sched G ls D X s -> In r ls -> bpar (rg s) r = None -> par_ok ev s ch r -> room G ev (nd s) ch r ->
  ends (fun f => set_region_shrinking f NI s r) (fun s' => radded s r (-1)%Z s' /\ Geo G ev s' ls ch /\ sched G ls (clean s D r) (fun r' => X r' /\ r' <> r) s').
Proof.
  intros G WF NI ev FI s ls ch D X r HG HQ Hr Hb Hp Hm. split; [apply shrinking_stops, (Geo_acc _ _ _ _ _ HG r Hr)|].
  intros f. exact (set_region_shrinking_spec G WF f ev s ls ch D X r HG HQ Hr Hb Hp Hm).
Qed.
Lemma set_region_frozen_ends : forall G, wf_graph G -> forall {NI : ints} ev {FI : fine NI G ev} s ls ch (D X : nat -> Prop) r, Geo G ev s ls ch -> sched G ls D X s -> In r ls -> bpar (rg s) r = None ->
  ends (fun f => set_region_frozen G f NI s r) (fun s' => radded s r (0)%Z s' /\ Geo G ev s' ls ch /\ sched G ls D (fun r' => X r' /\ r' <> r) s').
Proof.
  intros G WF NI ev FI s ls ch D X r HG HQ Hr Hb. split; [apply frozen_stops, (Geo_acc _ _ _ _ _ HG r Hr)|].
  intros f. exact (set_region_frozen_spec G WF f ev s ls ch D X r HG HQ Hr Hb).
Qed.
Lemma total_area_ends : forall G ev n g ls y ch, geo G ev n g ls y ch -> forall s r, In r ls -> shl (rg s) = shl g -> chl (rg s) = chl g ->
  ends (fun f => total_area f s r) (fun l => forall v, In v l <-> v < length G /\ In r (chn n ch v)).
Proof.
  intros G ev n g ls y ch HG s r Hr E1 E2. split.
  - destruct (area_stops s r) as (K & l & E); [rewrite E2; eapply geo_acc; eauto|]. exists K, (Ok l). split; [discriminate|assumption].
  - intros f. exact (area_spec G ev n g ls y ch HG s f r Hr E1 E2).
Qed.
