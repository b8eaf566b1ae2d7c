(** Model of UserGraph::get_nodes_on_shortest_path_from_source, called on a graph that is also changed and decoded with
    (src/pymatching/sparse_blossom/driver/user_graph.cc).

    The function is part of the C++ interface only.  The nodes are appended to a vector of the caller; here they are the result. *)
From Coq Require Import Reals ZArith NArith List Bool Arith.
From Verif Require Import M_Base M_Bits M_Core M_Session M_CoreHeap M_Build M_Flip M_Search M_ToEdges M_SearchHeap M_Pipeline M_PipelineHeap M_Merge M_UserGraph M_Matching.
Import ListNotations.
Local Open Scope outcome_scope.
Local Open Scope nat_scope.

(** user_graph.cc:213-215: nodes[node_id] is not checked; None stands for SIZE_MAX *)
Definition boundary_read (g : ugraph RN) (v : option nat) : outcome bool :=
  match v with
  | None => Ok true
  | Some u => if u <? num_nodes g then Ok (is_boundary_node g (Some u)) else UB
  end.
(** user_graph.cc:371 and 373: the condition under which an exception is raised *)
Definition not_in_graph (g : ugraph RN) (v : option nat) : bool :=
  match v with None => false | Some u => num_nodes g <=? u end.
(** search_graph.h: the nodes of the decoder's search graph, none if it was not built *)
Definition search_of (d : decoder) : sgraph := match d_search d with Some sg => sg | None => mkSG [] [] [] end.

Inductive ncall := Call (c : mcall) | PathNodes (src dst : option nat).
Inductive nreply :=
| Reply (r : mreply)
| NodeList (l : list nat)
| NodesRaised.                                            (* an exception *)

Section Nodes.
Variables (fuel : nat) (A : ints).

(** user_graph.cc:367-391.  [depth]: how many calls can be nested; two are enough. *)
Fixpoint get_nodes (depth : nat) (m : matching) (src dst : option nat) : outcome (matching * nreply) :=
  match depth with
  | O => Fuel
  | S depth' =>
      unless_thrown (get_decoder_with_search m) (fun x =>
        let '(m', d, r) := x in
        src_is_boundary <-- boundary_read (m_graph m') src ;;
        dst_is_boundary <-- boundary_read (m_graph m') dst ;;
        if not_in_graph (m_graph m') src then Ok (m', NodesRaised) else
        if not_in_graph (m_graph m') dst then Ok (m', NodesRaised) else
        match src with
        | Some a =>
            if negb src_is_boundary then
              let dst_tmp := if dst_is_boundary : bool then None else dst in
              y <-- path_from_source_h (sadj (search_of d)) fuel A (r_search r) (r_sheap r) a dst_tmp ;;
              let '(q, h, cells) := y in
              Ok (keep m' d (mkRun (r_state r) (r_heap r) q h (r_marks r)),
                  NodeList (map fst cells ++ match dst_tmp with Some b => [b] | None => [] end))
            else if negb dst_is_boundary then
              z <-- get_nodes depth' m' dst src ;;
              match z with (m2, NodeList l) => Ok (m2, NodeList (rev l)) | _ => Ok z end
            else Ok (m', NodesRaised)
        | None =>
            if negb dst_is_boundary then
              z <-- get_nodes depth' m' dst src ;;
              match z with (m2, NodeList l) => Ok (m2, NodeList (rev l)) | _ => Ok z end
            else Ok (m', NodesRaised)
        end)
        (Ok (m, NodesRaised))
  end.

Definition nstep (m : matching) (c : ncall) : outcome (matching * nreply) :=
  match c with
  | Call c => x <-- mstep fuel A m c ;; Ok (fst x, Reply (snd x))
  | PathNodes src dst => get_nodes 2 m src dst
  end.
Fixpoint nrun (m : matching) (cs : list ncall) : outcome (matching * list nreply) :=
  match cs with
  | [] => Ok (m, [])
  | c :: cs' =>
      x <-- nstep m c ;;
      y <-- nrun (fst x) cs' ;;
      Ok (fst y, snd x :: snd y)
  end.
End Nodes.
