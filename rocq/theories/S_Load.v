(** Specification of loading graphs into a Matching object that is in use: every reply is right for the graph that was loaded last, with the changes since. *)
From Coq Require Import Reals ZArith List Bool Arith.
From Verif Require Import M_Base M_Dem M_Merge S_Dem M_MatrixArgs S_MatrixArgs M_GraphIO M_Matching S_Matching M_UserGraph S_UserGraph M_Load.
Import ListNotations.
Local Open Scope nat_scope.

(** The graph after a call: one that was made is the graph from now on; if none was made, nothing changes. *)
Definition lafter (g : ugraph RN) (c : lcall) : ugraph RN :=
  match c with Load x => match make_graph x with Ok g' => g' | _ => g end | Use c => after g c end.
(** Weights within what add_edge accepts.  (add_edge leaves out edges with larger weights; check matrices and detector error models can bring them in.) *)
Definition moderate (g : ugraph RN) : Prop := forall e, In e (edges g) -> (Rabs (weight e) <= max_user_weight)%R.
Definition lfair (g : ugraph RN) (c : lcall) : Prop :=
  match c with
  | Load (FromMatrix a) =>
      (forall H, check_matrix a H -> well_formed H) /\ (forall F, a_faults a = Some F -> well_formed F) /\ forall g', make_graph (FromMatrix a) = Ok g' -> moderate g'
  | Load (FromGraph _ _) => True
  | Load (FromModel nd no dem) => moderate (load_dem RD nd no dem)
  | Use c => fair g c
  end.
(** A function that loads returns if the graph can be made and raises otherwise. *)
Definition lright (g : ugraph RN) (c : lcall) (r : mreply) : Prop :=
  match c with
  | Load x => (r = Done /\ exists g', make_graph x = Ok g') \/ (r = Raised /\ make_graph x = Throw)
  | Use c => right g c r
  end.
Fixpoint all_lfair (g : ugraph RN) (cs : list lcall) : Prop := match cs with [] => True | c :: cs' => lfair g c /\ all_lfair (lafter g c) cs' end.
Fixpoint all_lright (g : ugraph RN) (cs : list lcall) (rs : list mreply) : Prop :=
  match cs, rs with [], [] => True | c :: cs', r :: rs' => lright g c r /\ all_lright (lafter g c) cs' rs' | _, _ => False end.
