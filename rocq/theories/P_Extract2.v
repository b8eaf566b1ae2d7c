(** Both ways to take a matching apart, on idle decoders. *)
From Coq Require Import ZArith NArith List Bool Arith Lia Permutation.
From Verif Require Import M_Base M_Cyclic M_RadixHeap S_RadixHeap P_RadixHeap M_Varying M_Tracker M_Core M_Session M_CoreHeap M_Failing M_Extract S_Core S_Session S_CoreHeap S_Tree S_Decode S_Reach
  P_Up P_Tree P_Tree2 P_Ends P_CoreGeo P_CoreSched P_CoreArea P_CoreRoles P_CoreEvent P_CoreAdd P_CoreDecode M_Build S_Build M_Flip S_Flip P_Session P_Decode P_Signed P_Halt P_Halt2 P_Machine P_CoreSim P_CoreHeap P_CoreHeap2 P_Extract.
Import ListNotations.
Local Open Scope Z_scope.

Lemma heap_both : forall G I s h evs F ev, wf_graph G -> (forall u x w o, In (x, w, o) (nbrs G u) -> w <= max_weight) -> idle G s -> drained s h -> valid_events G evs ->
  valid_events G (neg_events I) -> (forall v, In v ev <-> effective I evs v) -> modest G F ev ->
  exists K s' h' o w l ws, (forall f, (K <= f)%nat -> decode_masks_h G f cyclic_ints I s h evs = Ok (s', h', (o, w)) /\ decode_edges_h G f cyclic_ints I s h evs = Ok (s', h', l)) /\
    idle G s' /\ drained s' h' /\ answers G I ev o w /\ NoDup (flat_map pair_ends l) /\ (forall v, In v (flat_map pair_ends l) <-> In v ev) /\
    Forall2 (stands_for_shortest G) l ws /\ fold_right Z.add 0 ws + neg_sum I = w /\ N.lxor (fold_right N.lxor 0%N (map eobs l)) (neg_obs I) = o.
Proof.
  intros G I s h evs F ev WF HW HI HD V VN Hev HM. pose proof (proj1 HM) as HF.
  pose (P := fun (s' : state) (o : N) (w : Z) (l : list cedge) => answers G I ev o w /\ NoDup (flat_map pair_ends l) /\ (forall v, In v (flat_map pair_ends l) <-> In v ev) /\
    exists ws, Forall2 (stands_for_shortest G) l ws /\ fold_right Z.add 0 ws + neg_sum I = w).
  destruct (transfer G WF I s h evs P) as (K & s' & h' & o & w & l & H1 & H2 & H3 & (H4 & H5 & H6 & ws & H7 & H8)); auto.
  - split; [assumption|]. split; [assumption|]. intros ev' E'. right. exists F. apply (modest_ext G F ev); [|assumption]. intros v. rewrite Hev, E'. reflexivity.
  - intros AB orc. destruct (decode_stops G WF orc I s evs (AB := AB) HI (proj1 V) (proj2 V) (proj1 VN) (proj2 VN)) as (K & r & Hr & H). pose proof (H K (le_n K)) as HK.
    destruct r as [[s' [[o w] l]]| | |]; [| | |congruence].
    + exists K, s', o, w, l. split; [exact H|]. destruct (decode_answer G K orc I s evs WF HI V VN s' o w l HK) as (ev' & F' & N1 & E1 & N2 & X1 & X2 & X3 & X4).
      assert (EE : forall v, In v ev <-> In v ev') by (intros v; rewrite Hev, E1; reflexivity).
      destruct (decode_pairs G K orc I s evs WF HI V VN s' o w l HK) as (Y1 & Y2 & _). destruct (decode_shortest G K orc I s evs WF HI V VN s' o w l HK) as (ws & Z1 & Z2 & _).
      split; [split|].
      * exists F'. split; [assumption|]. split; [|split; assumption]. apply (explains_ext G F' ev' ev); auto. intros v; symmetry; apply EE.
      * intros F'' HF''. apply X4. apply (explains_ext G F'' ev ev'); auto.
      * split; [exact Y1|]. split; [intros v; rewrite Hev; apply Y2|]. exists ws. auto.
    + exfalso. exact (decode_throws G K orc I s evs WF HI V VN HK F ev Hev HF).
    + exfalso. exact (decode_defined G K orc I s evs WF HI V VN HK).
  - destruct (both_of _ _ _ _ _ _ _ _ _ _ _ _ H1) as (E & B). exists K, s', h', o, w, l, ws. split; [exact B|]. repeat (split; [assumption|]). symmetry. exact E.
Qed.
(** Without events made by negative weights *)
Lemma match_edges_same : forall G fuel A I s h evs, neg_events I = [] -> decode_match_edges_h G fuel A I s h evs = decode_edges_h G fuel A I s h evs.
Proof. intros. now apply decode_match_edges_spec. Qed.
