(** Model of Matching.add_noise (src/pymatching/matching.py:182-200), on top of UserGraph::add_noise (M_CheckMatrix.v). *)
From Coq Require Import Reals ZArith List Bool.
From Verif Require Import M_Base M_UserGraph M_Merge M_CheckMatrix.
Import ListNotations.
Local Open Scope outcome_scope.

(** user_graph.cc:233-234: an edge is flipped if the number drawn for it is less than its error probability.  [draws] are the numbers that rand_float(0.0, 1.0)
    returns, one for each edge (rand/rand_gen.cc:33-37); how they are made is not modelled. *)
Definition hits (g : ugraph RN) (draws : list R) : list bool := map (fun x : uedge RN * R => Rltb (snd x) (prob (fst x))) (combine (edges g) draws).
(** matching.py:198-200 and user_graph.pybind.cc:161-178: None if an edge has no error probability, otherwise the two arrays *)
Definition py_add_noise (g : ugraph RN) (draws : list R) : outcome (option (list Z * list Z)) :=
  if negb (allp g) then Ok None
  else x <-- add_noise g (hits g draws) ;; Ok (Some (map Z.b2z (fst x), map Z.b2z (snd x))).
