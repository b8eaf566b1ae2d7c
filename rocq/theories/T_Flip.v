(** C11: edges occurring an even number of times in the paths cancel. *)
From Coq Require Import ZArith NArith List Bool Arith Lia.
From Verif Require Import M_Base M_Core S_Core M_Flip S_Reweight S_Flip P_Flip T_Reweight.
Import ListNotations.

(** [path] lists (node, neighbour index); [entries] are the same edges as (node, neighbour).  The markers are
    free of the FLIPPED bit at the start, whatever their other bits. *)
Theorem C11_cancellation : forall G path entries M, wf_graph G ->
  Forall2 (cell_entry G) path entries ->
  (forall u i, nth_error (nbrs G u) i <> None -> N.testbit (M u i) 0 = false) ->
  exists M' out, edges_of_paths G M path = Ok (M', out) /\
    (forall u i, M' u i = M u i) /\
    (forall e, In e out -> In e entries) /\
    (forall e, occurrences e out = if Nat.odd (occurrences e entries) then 1 else 0).
Proof. exact cancel_wf. Qed.
Print Assumptions C11_cancellation.

(** Triangle with a boundary edge; edge 0-1 is used three times, 1-2 twice in opposite directions, the
    boundary edge once. *)
Definition path_ex : list (nat * nat) := [(0, 1); (1, 1); (0, 0); (2, 1); (1, 0); (0, 1)]%nat.
Definition entries_ex : list (nat * option nat) :=
  [(0, Some 1); (1, Some 2); (0, None); (2, Some 1); (1, Some 0); (0, Some 1)]%nat.
Example C11_example : wf_graph tri /\ Forall2 (cell_entry tri) path_ex entries_ex /\
  exists M', edges_of_paths tri (fun u i => N.of_nat (2 * u)) path_ex = Ok (M', [(0, Some 1); (0, None)]%nat).
Proof.
  split; [exact tri_wf|]. split.
  - unfold path_ex, entries_ex. repeat (constructor; [split; [reflexivity|]; unfold S_Reweight.at_index; cbn; eexists; eexists; reflexivity|]). constructor.
  - eexists. vm_compute. reflexivity.
Qed.
