(** Model of the two functions that take a finished matching apart, each on its own: one adds up observables and weights, the other collects match edges
    (src/pymatching/sparse_blossom/matcher/mwpm.cc, driver/mwpm_decoding.cc).  M_Core.v has one function in place of both. *)
From Coq Require Import ZArith NArith List Bool Arith.
From Verif Require Import M_Base M_Varying M_Core M_CoreHeap.
Import ListNotations.
Local Open Scope outcome_scope.
Local Open Scope nat_scope.

(** mwpm.cc:425-429 MatchingResult::operator+= *)
Definition sum (x y : N * Z) : N * Z := (N.lxor (fst x) (fst y), (snd x + snd y)%Z).

Section Extract.
Variables (fuel : nat) (A : ints).

(** mwpm.cc:305-313 and 363-370, the same in both: the children have no parent any more, and the one that holds the matched end takes over the match. *)
Definition free_children (s : state) (r : nat) : outcome (state * nat) :=
  s1 <-- foldS (clear_blossom_parent_ignoring_wrapped_radius fuel A) (map fst (chl (rg s) r)) s ;;
  v <-- deref (efrom (medge (ma s1) r)) ;;
  sub <-- deref (top (nd s1) v) ;;
  let m := set_match (ma s1) sub (mreg (ma s1) r) (medge (ma s1) r) in
  let m' := match mreg m sub with Some q => set_mreg m q (Some sub) | None => m end in
  Ok (set_ma s1 m', sub).

(** ** Observables and weight *)
(** mwpm.cc:319-324, the loop, of which [rec] is the recursive call *)
Fixpoint pairs_masks (rec : state -> nat -> outcome (state * (N * Z))) (l : list (nat * nat * cedge)) (s : state) (res : N * Z) : outcome (state * (N * Z)) :=
  match l with
  | [] => Ok (s, res)
  | (r1, r2, e) :: l' =>
      y <-- rec (add_match s r1 r2 e) r1 ;;
      pairs_masks rec l' (fst y) (sum res (snd y))
  end.
(** mwpm.cc:303-326 pair_and_shatter_subblossoms_and_extract_matches; [res] is passed by reference *)
Definition pair_and_shatter_masks (rec : state -> nat -> outcome (state * (N * Z))) (s : state) (r : nat) (res : N * Z) : outcome (state * (N * Z) * nat) :=
  x <-- free_children s r ;;
  let '(s2, sub) := x in
  let res2 := (fst res, (snd res + y_intercept (rad (rg s2) r))%Z) in
  let cyc := chl (rg s2) r in
  z <-- pairs_masks rec (child_pairs cyc (find_child sub 0 cyc)) s2 res2 ;;
  Ok (del_region (fst z) r, snd z, sub).
(** mwpm.cc:328-359 shatter_blossom_and_extract_matches *)
Fixpoint extract_masks (k : nat) (s : state) (r : nat) : outcome (state * (N * Z)) :=
  match k with
  | O => Fuel
  | S k' =>
      let s1 := cleanup_shell_area s r in
      let s2 := match mreg (ma s1) r with None => s1 | Some q => cleanup_shell_area s1 q end in
      let y x := y_intercept (rad (rg s2) x) in
      let shatter :=
        x <-- (match chl (rg s2) r with [] => Ok (s2, (0%N, 0%Z), r) | _ => pair_and_shatter_masks (extract_masks k') s2 r (0%N, 0%Z) end) ;;
        let '(s3, res, r3) := (x : state * (N * Z) * nat) in
        x2 <-- (match mreg (ma s3) r3 with
                | None => Ok (s3, res)
                | Some q => match chl (rg s3) q with
                            | [] => Ok (s3, res)
                            | _ => z <-- pair_and_shatter_masks (extract_masks k') s3 q res ;; Ok (fst z)
                            end
                end) ;;
        z <-- extract_masks k' (fst x2) r3 ;;
        Ok (fst z, sum (snd x2) (snd z)) in
      match mreg (ma s2) r with
      | Some q =>
          match chl (rg s2) r, chl (rg s2) q with
          | [], [] => Ok (del_region (del_region s2 q) r, (eobs (medge (ma s2) r), (y r + y q)%Z))
          | _, _ => shatter
          end
      | None =>
          match chl (rg s2) r with
          | [] => Ok (del_region s2 r, (eobs (medge (ma s2) r), y r))
          | _ => shatter
          end
      end
  end.
(** mwpm_decoding.cc:148-156 *)
Fixpoint all_masks (evs : list nat) (s : state) (res : N * Z) : outcome (state * (N * Z)) :=
  match evs with
  | [] => Ok (s, res)
  | v :: evs' =>
      match arr (nd s) v with
      | None => all_masks evs' s res
      | Some _ =>
          r <-- deref (top (nd s) v) ;;
          y <-- extract_masks fuel s r ;;
          all_masks evs' (fst y) (sum res (snd y))
      end
  end.

(** ** Match edges *)
(** mwpm.cc:376-381 *)
Fixpoint pairs_edges (rec : state -> nat -> list cedge -> outcome (state * list cedge)) (l : list (nat * nat * cedge)) (s : state) (out : list cedge) : outcome (state * list cedge) :=
  match l with
  | [] => Ok (s, out)
  | (r1, r2, e) :: l' =>
      y <-- rec (add_match s r1 r2 e) r1 out ;;
      pairs_edges rec l' (fst y) (snd y)
  end.
(** mwpm.cc:361-384 pair_and_shatter_subblossoms_and_extract_match_edges *)
Definition pair_and_shatter_edges (rec : state -> nat -> list cedge -> outcome (state * list cedge)) (s : state) (r : nat) (out : list cedge) : outcome (state * list cedge * nat) :=
  x <-- free_children s r ;;
  let '(s2, sub) := x in
  let cyc := chl (rg s2) r in
  z <-- pairs_edges rec (child_pairs cyc (find_child sub 0 cyc)) s2 out ;;
  Ok (del_region (fst z) r, snd z, sub).
(** mwpm.cc:386-415 shatter_blossom_and_extract_match_edges *)
Fixpoint extract_edges (k : nat) (s : state) (r : nat) (out : list cedge) : outcome (state * list cedge) :=
  match k with
  | O => Fuel
  | S k' =>
      let s1 := cleanup_shell_area s r in
      let s2 := match mreg (ma s1) r with None => s1 | Some q => cleanup_shell_area s1 q end in
      let shatter :=
        x <-- (match chl (rg s2) r with [] => Ok (s2, out, r) | _ => pair_and_shatter_edges (extract_edges k') s2 r out end) ;;
        let '(s3, out3, r3) := (x : state * list cedge * nat) in
        x2 <-- (match mreg (ma s3) r3 with
                | None => Ok (s3, out3)
                | Some q => match chl (rg s3) q with
                            | [] => Ok (s3, out3)
                            | _ => z <-- pair_and_shatter_edges (extract_edges k') s3 q out3 ;; Ok (fst z)
                            end
                end) ;;
        extract_edges k' (fst x2) r3 (snd x2) in
      match mreg (ma s2) r with
      | Some q =>
          match chl (rg s2) r, chl (rg s2) q with
          | [], [] => Ok (del_region (del_region s2 q) r, out ++ [medge (ma s2) r])
          | _, _ => shatter
          end
      | None =>
          match chl (rg s2) r with
          | [] => Ok (del_region s2 r, out ++ [medge (ma s2) r])
          | _ => shatter
          end
      end
  end.
(** mwpm_decoding.cc:158-165 *)
Fixpoint all_edges (evs : list nat) (s : state) (out : list cedge) : outcome (state * list cedge) :=
  match evs with
  | [] => Ok (s, out)
  | v :: evs' =>
      match arr (nd s) v with
      | None => all_edges evs' s out
      | Some _ =>
          r <-- deref (top (nd s) v) ;;
          y <-- extract_edges fuel s r out ;;
          all_edges evs' (fst y) (snd y)
      end
  end.
End Extract.

(** ** Decoding, on the radix heap *)
Section Decode.
Variables (G : graph) (fuel : nat) (A : ints) (I : neg_info).
(** mwpm_decoding.cc:181-187 and 218, 234-245: process_timeline_until_completion and the result for at most 64 observables *)
Definition decode_masks_h (s : state) (h : heap) (evs : list nat) : outcome (state * heap * (N * Z)) :=
  y <-- process_timeline_h G fuel A I s h evs ;;
  let (s1, h1) := (y : state * heap) in
  x <-- all_masks fuel A evs s1 (0%N, 0%Z) ;;
  y <-- (match neg_events I with
         | [] => Ok x
         | _ => z <-- all_masks fuel A (neg_events I) (fst x) (0%N, 0%Z) ;; Ok (fst z, sum (snd x) (snd z))
         end) ;;
  Ok (fst y, h1, (N.lxor (fst (snd y)) (neg_obs I), (snd (snd y) + neg_sum I)%Z)).
(** mwpm_decoding.cc:218-225 and 276-281: process_timeline_until_completion and the match edges, from which paths are made; match_edges is cleared
    before it is filled. *)
Definition decode_edges_h (s : state) (h : heap) (evs : list nat) : outcome (state * heap * list cedge) :=
  y <-- process_timeline_h G fuel A I s h evs ;;
  let (s1, h1) := (y : state * heap) in
  x <-- all_edges fuel A evs s1 [] ;;
  y <-- (match neg_events I with [] => Ok x | _ => all_edges fuel A (neg_events I) (fst x) (snd x) end) ;;
  Ok (fst y, h1, snd y).
(** mwpm_decoding.cc:250-257 decode_detection_events_to_match_edges, after the test for negative weights: events made by negative weights are left alone *)
Definition decode_match_edges_h (s : state) (h : heap) (evs : list nat) : outcome (state * heap * list cedge) :=
  y <-- process_timeline_h G fuel A I s h evs ;;
  let (s1, h1) := (y : state * heap) in
  x <-- all_edges fuel A evs s1 [] ;;
  Ok (fst x, h1, snd x).
End Decode.
