(** Model of loading a detector error model (driver/user_graph.{h,cc}).
    stim's parsing and flattening of the model (iter_flatten_error_instructions) is not modelled: the
    input is the flattened list of error instructions. *)
From Coq Require Import Arith List Bool.
From Verif Require Import M_Base M_UserGraph.
Import ListNotations.

(** The numeric operations of M_UserGraph and those used while loading. *)
Record demops := {
  base : numops;
  llr : num base -> num base;                      (* log((1 - p) / p) *)
  p_pos : num base -> bool;                        (* p > 0 *)
  p_is_zero : num base -> bool;                    (* p == 0 *)
  p_gt_half : num base -> bool;                    (* p > 0.5 *)
  p_zero : num base;                               (* 0.0 *)
  p_cond : num base -> num base -> num base        (* min(0.5, joint / marginal) *)
}.

(** stim::DemTarget *)
Inductive target := Det (d : nat) | Obs (o : nat) | Sep.

Section Dem.
Variable D : demops.
Notation N := (base D).
Notation num := (num N).

(** A flattened error instruction: probability and targets. *)
Definition instruction : Type := num * list target.

(** user_graph.cc:349-356 handle_dem_instruction (identical to 358-365); the INDEPENDENT strategy never
    throws. *)
Definition handle_dem_instruction (g : ugraph N) (p : num) (dets obs : list nat) : ugraph N :=
  match dets with
  | [d0; d1] => fst (add_or_merge g d0 (Some d1) obs (llr D p) p INDEPENDENT)
  | [d0] => fst (add_or_merge g d0 None obs (llr D p) p INDEPENDENT)
  | _ => g
  end.

(** user_graph.h:229-250: one instruction of iter_detector_error_model_edges. *)
Fixpoint iter_targets (g : ugraph N) (p : num) (dets obs : list nat) (ts : list target) : ugraph N :=
  match ts with
  | [] => if p_pos D p then handle_dem_instruction g p dets obs else g
  | Det d :: ts' => iter_targets g p (dets ++ [d]) obs ts'
  | Obs o :: ts' => iter_targets g p dets (obs ++ [o]) ts'
  | Sep :: ts' => if p_pos D p then iter_targets (handle_dem_instruction g p dets obs) p [] [] ts'
                  else iter_targets g p dets obs ts'
  end.

(** user_graph.cc:493-517 detector_error_model_to_user_graph with enable_correlations = false. *)
Definition load_dem (num_detectors num_observables : nat) (dem : list instruction) : ugraph N :=
  fold_left (fun g '(p, ts) => iter_targets g p [] [] ts) dem (new_graph N num_detectors num_observables).

(** user_graph.h:266-360. A component of a decomposed error: node1, node2 (None = SIZE_MAX), observables. *)
Definition component : Type := nat * option nat * list nat.

(** The loop over the targets (user_graph.h:293-334): [cur] is the component under construction with its
    number of detectors; node1 = None while it has none. *)
Fixpoint parse_targets (ts : list target) (done : list component) (n1 n2 : option nat) (obs : list nat) (ndet : nat) (sep : bool)
  : outcome (list component) :=
  match ts with
  | [] => match ndet, n1 with
          | O, _ => if sep then Throw else Ok []          (* undetectable: ignored, nothing is added *)
          | _, Some a => Ok (done ++ [(a, n2, obs)])
          | _, None => UB
          end
  | Det d :: ts' =>
      match ndet, n1 with
      | O, _ => parse_targets ts' done (Some d) n2 obs 1 sep
      | 1, Some a => if a <=? d then parse_targets ts' done (Some a) (Some d) obs 2 sep
                     else parse_targets ts' done (Some d) (Some a) obs 2 sep
      | _, _ => Throw
      end
  | Obs o :: ts' => parse_targets ts' done n1 n2 (obs ++ [o]) ndet sep
  | Sep :: ts' => match ndet, n1 with
                  | O, _ => Throw
                  | _, Some a => parse_targets ts' (done ++ [(a, n2, obs)]) None None [] 0 true
                  | _, None => UB
                  end
  end.

(** Edge keys: std::minmax(node1, node2), with SIZE_MAX the largest. *)
Definition key : Type := nat * option nat.
Definition minmax (u : nat) (v : option nat) : key :=
  match v with Some v => if u <=? v then (u, Some v) else (v, Some u) | None => (u, None) end.
Definition key_eqb (a b : key) : bool := (fst a =? fst b) && opt_eqb (snd a) (snd b).

(** joint_probabilites: a map of maps, as an association list; operator[] inserts 0.
    Simplification: std::map iterates in key order, this list in insertion order. *)
Definition joint : Type := list (key * key * num).

Definition bernoulli (a b : num) : num := p_xor N a b.

Fixpoint joint_xor (j : joint) (a b : key) (p : num) : joint :=
  match j with
  | [] => [(a, b, bernoulli (p_zero D) p)]
  | (a', b', q) :: j' => if key_eqb a a' && key_eqb b b' then (a', b', bernoulli q p) :: j'
                         else (a', b', q) :: joint_xor j' a b p
  end.

Fixpoint joint_get (j : joint) (a b : key) : option num :=
  match j with
  | [] => None
  | (a', b', q) :: j' => if key_eqb a a' && key_eqb b b' then Some q else joint_get j' a b
  end.

Definition ckey (c : component) : key := let '(a, b, _) := c in minmax a b.

(** user_graph.cc:472-485: all pairs k0 < k1. *)
Fixpoint add_pairs (j : joint) (cs : list key) (p : num) : joint :=
  match cs with
  | [] => j
  | a :: cs' => add_pairs (fold_left (fun j b => joint_xor (joint_xor j a b p) b a p) cs' j) cs' p
  end.

(** user_graph.cc:469-491 add_decomposed_error_to_joint_probabilities. In the code the two references
    p01 and p10 are taken before either is updated; updating one after the other through the map is the
    same, also when they alias. *)
Definition add_decomposed_error (j : joint) (cs : list component) (p : num) : joint :=
  let ks := map ckey cs in
  fold_left (fun j k => joint_xor j k k p) ks (add_pairs j ks p).

Definition add_component (p : num) (g : ugraph N) (c : component) : ugraph N :=
  let '(a, b, obs) := c in
  match b with
  | None => handle_dem_instruction g p [a] obs
  | Some b => handle_dem_instruction g p [a; b] obs
  end.

(** user_graph.h:271-359 with include_decomposed_error_components_in_edge_weights = true. *)
Definition correlated_instruction (st : ugraph N * joint) (x : instruction) : outcome (ugraph N * joint) :=
  let '(g, j) := st in let '(p, ts) := x in
  if p_gt_half D p then Throw
  else if p_is_zero D p then Ok (g, j)
  else bindO (parse_targets ts [] None None [] 0 false) (fun cs =>
       match cs with
       | [] => Ok (g, j)
       | _ => Ok (fold_left (add_component p) cs g, add_decomposed_error j cs p)
       end).

Fixpoint correlated_instructions (st : ugraph N * joint) (dem : list instruction) : outcome (ugraph N * joint) :=
  match dem with
  | [] => Ok st
  | x :: dem' => bindO (correlated_instruction st x) (fun st' => correlated_instructions st' dem')
  end.

(** user_graph.cc:519-546 populate_implied_edge_weights: the rules of one edge (affected edge, weight).
    The outer map has an entry for the edge iff some pair starts with it; [.at] throws if the edge has no
    marginal. *)
Definition implied_rules (j : joint) (e : uedge N) : outcome (list (key * num)) :=
  let c := minmax (node1 e) (node2 e) in
  if existsb (fun '(a, _, _) => key_eqb a c) j then
    match joint_get j c c with
    | None => Throw
    | Some marginal =>
        if p_is_zero D marginal then Ok []
        else Ok (flat_map (fun '(a, b, q) => if key_eqb a c && negb (key_eqb b c) then [(b, llr D (p_cond D q marginal))] else []) j)
    end
  else Ok [].

Fixpoint mapO {A B} (f : A -> outcome B) (l : list A) : outcome (list B) :=
  match l with
  | [] => Ok []
  | a :: l' => bindO (f a) (fun b => bindO (mapO f l') (fun bs => Ok (b :: bs)))
  end.

(** user_graph.cc:500-508: loading with enable_correlations = true: the graph and, per edge, its rules. *)
Definition load_dem_correlated (num_detectors num_observables : nat) (dem : list instruction)
  : outcome (ugraph N * joint * list (list (key * num))) :=
  bindO (correlated_instructions (new_graph N num_detectors num_observables, []) dem) (fun '(g, j) =>
  bindO (mapO (implied_rules j) (edges g)) (fun rules => Ok (g, j, rules))).
End Dem.
