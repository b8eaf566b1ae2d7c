(** The Matching object, asked anything on a compact graph. *)
From Coq Require Import Reals ZArith List Bool Arith Lia Lra.
From Verif Require Import M_Base M_Core M_CoreHeap M_Bits S_Bits P_Bits M_Merge M_UserGraph S_UserGraph P_UserGraph S_GraphMap P_GraphMap S_Pipeline P_Pipeline P_CheckMatrix M_Matching S_Matching P_Matching P_Compact.
Import ListNotations.
Local Open Scope nat_scope.

Definition bounded (g : ugraph RN) : Prop := Inv g /\ NoDup (bnodes g) /\ forall b, In b (bnodes g) -> b < num_nodes g.
Lemma bounded_length : forall g, bounded g -> num_detectors g + length (bnodes g) = num_nodes g.
Proof. intros g (_ & ND & H). unfold num_detectors. assert (length (bnodes g) <= num_nodes g); [|lia]. rewrite <- (seq_length (num_nodes g) 0). apply NoDup_incl_length; [exact ND|]. intros b Hb. apply in_seq. specialize (H b Hb). lia. Qed.
Lemma bounded_step : forall g c, bounded g -> in_range g c -> bounded (after g c).
Proof.
  intros g c (HI & ND & H) HR. destruct c as [x| | | | |]; try exact (conj HI (conj ND H)). cbn [after]. split; [now apply apply_op_inv|]. split.
  - destruct x as [u v o w p s|bs|n]; cbn [apply_op] in *; [|exact HR|exact ND].
    assert (E : bnodes (fst (py_add g u v o w p s)) = bnodes g). { unfold py_add. destruct (w_exceeds RN w); [reflexivity|]. apply (call_effect g (mkCall u v o w p s) HI). }
    rewrite E. exact ND.
  - exact (bnodes_in_range [x] g HI H).
Qed.
Lemma event_in : forall g z, bounded g -> accepted g z -> forall v, event_at z v -> v < num_nodes g.
Proof.
  intros g z HB HA v HE. pose proof (bounded_length g HB) as L. destruct z as [l|nc rows|]; cbn [accepted event_at] in *; [| |contradiction].
  - destruct (Nat.lt_ge_cases v (length l)); [lia|]. rewrite nth_overflow in HE by lia. contradiction.
  - destruct HE as (t & c & (Ht & Hc & ->) & _). nia.
Qed.
Lemma any_fair : forall cs g, bounded g -> always (fun g c => in_range g c /\ (asks c -> compact g)) g cs -> all_fair g cs.
Proof.
  induction cs as [|c cs IH]; intros g HB H; [exact I|]. destruct H as [[H1 H2] H3]. split; [|apply IH; [now apply bounded_step|exact H3]].
  destruct c as [x|z|ps pp z|z|z|z]; cbn [fair in_range asks] in *; [exact I|intros HA..]; specialize (H2 I).
  - split; [exact H1|]. right. split; [exact H2|]. exact (event_in g z HB HA).
  - split; [exact (proj1 H1)|]. destruct z as [l|nc shots|]; try exact I. destruct H1 as [_ H1]. eapply Forall_impl; [|exact H1]. intros shot Hs. right. split; [exact H2|exact Hs].
  - destruct H1 as [U NL]. split; [exact U|]. split; [exact NL|]. right. split; [exact H2|]. exact (event_in g z HB HA).
  - destruct H1 as [U NL]. split; [exact U|]. split; [exact NL|]. right. split; [exact H2|]. exact (event_in g z HB HA).
  - destruct H1 as [U NL]. split; [exact U|]. split; [exact NL|]. right. split; [exact H2|]. exact (event_in g z HB HA).
Qed.
Lemma new_bounded : forall n k, bounded (new_graph RN n k).
Proof. intros n k. split; [exact (new_inv n k)|]. split; [constructor|intros b []]. Qed.
Lemma any_ok : forall n k cs, always (fun g c => in_range g c /\ (asks c -> compact g)) (new_graph RN n k) cs ->
  exists K m' rs, (forall fuel, K <= fuel -> mrun fuel cyclic_ints (new_matching (new_graph RN n k)) cs = Ok (m', rs)) /\ all_right (new_graph RN n k) cs rs.
Proof. intros n k cs H. apply session_ok. apply any_fair; [apply new_bounded|exact H]. Qed.
Lemma few_always : forall cs g, Inv g -> always (fun g c => in_range g c /\ (asks c -> num_nodes g <= 64)) g cs -> always (fun g c => in_range g c /\ (asks c -> compact g)) g cs.
Proof.
  induction cs as [|c cs IH]; intros g HI H; [exact I|]. destruct H as [[H1 H2] H3]. split; [split; [exact H1|]; intros A; apply few_nodes_compact; auto|].
  apply IH; [|exact H3]. destruct c; try exact HI. cbn [after]. now apply apply_op_inv.
Qed.
Lemma few_ok : forall n k cs, always (fun g c => in_range g c /\ (asks c -> num_nodes g <= 64)) (new_graph RN n k) cs ->
  exists K m' rs, (forall fuel, K <= fuel -> mrun fuel cyclic_ints (new_matching (new_graph RN n k)) cs = Ok (m', rs)) /\ all_right (new_graph RN n k) cs rs.
Proof. intros n k cs H. apply any_ok. apply few_always; [exact (new_inv n k)|exact H]. Qed.
