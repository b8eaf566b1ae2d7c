(** C10, continued: the ends of a search have to be nodes.

    A search from or to a node that the search graph does not have reads outside the array of nodes: its behaviour is undefined, whatever the
    graph and the state of the flooder, with either of the two searches and with the queue or the radix heap. *)
From Coq Require Import Arith ZArith NArith List Bool Lia.
From Verif Require Import M_Base M_Build M_Core M_Search M_SearchHeap.
Import ListNotations.

Lemma ends_fail : forall G a b, ~ (a < length G /\ forall d, b = Some d -> d < length G) -> ends_ok G a b = false.
Proof.
  intros G a b H. apply not_true_is_false. intros E. apply H. unfold ends_ok, in_nodes in E. apply andb_true_iff in E as [E1 E2]. split; [now apply Nat.ltb_lt|]. intros d ->. now apply Nat.ltb_lt.
Qed.
Theorem C10_ends : forall G fuel orc A s h a b, ~ (a < length G /\ forall d, b = Some d -> d < length G) ->
  path_from_middle G fuel orc A s a b = UB /\ path_from_source G fuel orc A s a b = UB /\ path_from_middle_h G fuel A s h a b = UB /\ path_from_source_h G fuel A s h a b = UB.
Proof. intros G fuel orc A s h a b H. unfold path_from_middle, path_from_source, path_from_middle_h, path_from_source_h. rewrite (ends_fail G a b H). auto. Qed.
Print Assumptions C10_ends.

(** ** A case that meets the hypotheses *)
(** Two nodes, joined by an edge; the search is from node 0 to node 2, which does not exist. *)
Example C10_ends_example : let G : graph := [[(Some 1, 2%Z, 0%N)]; [(Some 0, 2%Z, 0%N)]] in ~ (0 < length G /\ forall d, Some 2 = Some d -> d < length G) /\ (0 < length G /\ forall d, Some 1 = Some d -> d < length G).
Proof. cbv zeta. split; [intros [_ H]; specialize (H 2 eq_refl); cbn in H; lia|]. split; [cbn; lia|]. intros d E. injection E as <-. cbn. lia. Qed.
