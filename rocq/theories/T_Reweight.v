(** C12: reweighting is undone exactly.  C13: while in force it lowers weights to the minimum implied by the
    triggered rules and keeps both directions equal. *)
From Coq Require Import ZArith NArith List Bool Arith Lia.
From Verif Require Import M_Base M_Core S_Core M_Reweight S_Reweight P_Reweight.
Import ListNotations.
Local Open Scope Z_scope.

(** Any rules (even ones that touch a cell through both pointers), any number of calls, any edges, including
    calls that end with an exception half way. *)
Theorem C12_reweighting_is_undone : forall G T calls W,
  let st := undo_reweights (session G T calls (W, [])) in
  (forall c, fst st c = W c) /\ snd st = [].
Proof. exact undo_session. Qed.
Print Assumptions C12_reweighting_is_undone.

(** Triangle 0-1-2 with a boundary edge at 0. *)
Definition tri : graph :=
  [[(None, 10, 1%N); (Some 1%nat, 8, 0%N); (Some 2%nat, 6, 2%N)];
   [(Some 0%nat, 8, 0%N); (Some 2%nat, 4, 0%N)];
   [(Some 0%nat, 6, 2%N); (Some 1%nat, 4, 0%N)]].
(** Edge 0-1 lowers 1-2 to 2; edge 1-2 lowers 0-2 to 4 and the boundary edge to 6; edge 0-boundary lowers 0-1 to 20. *)
Definition uex : list (list (list urule)) :=
  [[[(0%nat, Some 1%nat, 10)]; [(1%nat, Some 2%nat, 1)]; []];
   [[(2%nat, Some 1%nat, 1)]; [(0%nat, Some 2%nat, -2); (0%nat, None, 3)]];
   [[]; [(2%nat, Some 0%nat, 2); (0%nat, None, 3)]]].
Definition tex : list (list (list rule)) := match convert_implied_weights tri uex with Ok T => T | _ => [] end.
Example C12_example :
  let st := session tri tex [(false, [0; 1; 2; 1]); (false, [0; -1; 1; 0])] (weights_of tri, []) in
  map (fst st) [(0, 0); (0, 1); (0, 2); (1, 0); (1, 1); (2, 0); (2, 1)]%nat = [6; 8; 4; 8; 2; 4; 2] /\
  length (snd st) = 5%nat /\
  map (fst (undo_reweights st)) [(0, 0); (0, 1); (0, 2); (1, 0); (1, 1); (2, 0); (2, 1)]%nat = [10; 8; 6; 8; 4; 6; 4].
Proof. vm_compute. repeat split. Qed.

Theorem C13_reweighted_weights : forall G U T edges st', wf_graph G -> convert_implied_weights G U = Ok T ->
  reweight_for_edges G T edges (weights_of G, []) = (st', Ok tt) ->
  let G' := with_weights (fst st') G in
  wf_graph G' /\
  (forall u k, match nth_error (nbrs G u) k, nth_error (nbrs G' u) k with
     | Some (x, w, o), Some (x', w', o') => x' = x /\ o' = o /\ is_min G U edges u x w w'
     | None, None => True
     | _, _ => False
     end).
Proof. exact reweight_spec. Qed.
Print Assumptions C13_reweighted_weights.

Lemma tri_wf : wf_graph tri.
Proof.
  assert (H : forall u, (u < 3)%nat \/ nbrs tri u = []) by (intros [|[|[|[|u]]]]; [left; lia|left; lia|left; lia|now right|right; unfold nbrs; now destruct u]).
  split.
  - intros u x w o Hin. destruct u as [|[|[|u]]]; simpl in Hin; unfold nbrs in Hin; simpl in Hin.
    4:{ destruct u; destruct Hin. }
    all: intuition; match goal with E : _ = _ |- _ => injection E as <- <- <- end; try lia; reflexivity.
  - intros u v w o Hin. destruct u as [|[|[|u]]]; unfold nbrs in Hin; simpl in Hin.
    4:{ destruct u; destruct Hin. }
    all: intuition; try discriminate; match goal with E : _ = _ |- _ => injection E as <- <- <- end; unfold nbrs; simpl; auto.
  - intros u w o Hin. destruct u as [|[|[|u]]]; unfold nbrs in Hin; simpl in Hin.
    4:{ destruct u; destruct Hin. }
    all: intuition; discriminate.
  - intros u. destruct u as [|[|[|u]]]; unfold nbrs; simpl; [| | |destruct u; constructor];
      repeat constructor; simpl; intuition discriminate.
  - intros u e rest E w o Hin. destruct u as [|[|[|u]]]; unfold nbrs in E; simpl in E; [| | |destruct u; discriminate];
      injection E as <- <-; simpl in Hin; intuition discriminate.
Qed.
Example C13_example :
  wf_graph tri /\ convert_implied_weights tri uex = Ok tex /\
  exists st', reweight_for_edges tri tex [0; 1; 2; 1] (weights_of tri, []) = (st', Ok tt) /\
    with_weights (fst st') tri =
      [[(None, 6, 1%N); (Some 1%nat, 8, 0%N); (Some 2%nat, 4, 2%N)];
       [(Some 0%nat, 8, 0%N); (Some 2%nat, 2, 0%N)];
       [(Some 0%nat, 4, 2%N); (Some 1%nat, 2, 0%N)]].
Proof.
  split; [exact tri_wf|]. split; [reflexivity|]. eexists. split; [reflexivity|]. vm_compute. reflexivity.
Qed.
