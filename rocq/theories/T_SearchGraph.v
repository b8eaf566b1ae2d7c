(** C50: the search graph holds every edge at both of its ends. *)
From Coq Require Import ZArith NArith List Bool Arith.
From Verif Require Import M_Base M_Core M_Build S_Build M_Flip S_Flip M_Search M_ToEdges S_ToEdges P_SearchGraph.
Import ListNotations.
Local Open Scope nat_scope.

(** The entries at a node are the views from that node of the given edges that are no self-loops: the other end, the
    magnitude of the weight, the observables, and in the marker the sign of the weight (WEIGHT_SIGN = 2). *)
Theorem C50_entries : forall n E sg, sbuild n E = Ok sg -> forall u x w o m,
  (exists i, nth_error (nbrs (sadj sg) u) i = Some (x, w, o) /\ marks_of sg u i = m) <->
  exists a y z obs, In (a, y, z, obs) E /\ y <> Some a /\ same_edge (u, x) (a, y) = true /\
    w = Z.abs z /\ (forall k, N.testbit o (N.of_nat k) = Nat.odd (count_occ Nat.eq_dec obs k)) /\ m = if (z <? 0)%Z then 2%N else 0%N.
Proof. exact search_entries. Qed.
Print Assumptions C50_entries.

(** The list of negative edges has those edges, in the order given. *)
Theorem C50_negative_edges : forall n E sg, sbuild n E = Ok sg ->
  sneg sg = map s_pair (filter (fun e => (s_weight e <? 0)%Z && negb (match s_pair e with (u, Some v) => u =? v | _ => false end)) E).
Proof. exact search_negatives. Qed.
Print Assumptions C50_negative_edges.

Example C50_example : exists sg, sbuild 3 [(0, Some 1, (-4)%Z, [0; 70]); (1, Some 1, (-2)%Z, []); (2, None, (-6)%Z, [1]); (2, Some 1, 8%Z, [])] = Ok sg /\
  sneg sg = [(0, Some 1); (2, None)] /\ nbrs (sadj sg) 1 = [(Some 0, 4%Z, (1 + 2 ^ 70)%N); (Some 2, 8%Z, 0%N)] /\ nbrs (sadj sg) 2 = [(None, 6%Z, 2%N); (Some 1, 8%Z, 0%N)] /\
  marks_of sg 1 0 = 2%N /\ marks_of sg 1 1 = 0%N /\ marks_of sg 2 0 = 2%N.
Proof. eexists. vm_compute. repeat split; reflexivity. Qed.
