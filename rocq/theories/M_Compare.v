(** Model of the small operators on clocks, compressed edges, events and results: tracker/cyclic.h, flooder_matcher_interop/compressed_edge.h
    and .cc, mwpm_event.cc, region_edge.cc, flooder/match.cc, tracker/flood_check_event.cc, matcher/alternating_tree.cc, matcher/mwpm.cc and
    driver/mwpm_decoding.cc.  Pointers are numbers; the functions that print (operator<<, str) are not modelled. *)
From Coq Require Import ZArith NArith List Bool Arith.
From Verif Require Import M_Base M_Cyclic M_Core M_Inspect.
Import ListNotations.
Local Open Scope nat_scope.

(** ** cyclic.h:43-72, 85-97.  An operation on a clock of [w] bits gives the new value and the value returned.
    [+=] and [-=] take an integer of a type in which the sum does not overflow. *)
Inductive cop := PreInc | PostInc | PreDec | PostDec | AddInt (o : Z) | SubInt (o : Z) | AddCyc (o : Z) | SubCyc (o : Z).
Definition cyc_step (w v : Z) (o : cop) : Z * Z :=
  match o with
  | PreInc => (wrap w (v + 1), wrap w (v + 1))          (* cyclic.h:49-51 *)
  | PostInc => (wrap w (v + 1), v)                      (* cyclic.h:52-54 *)
  | PreDec => (wrap w (v - 1), wrap w (v - 1))          (* cyclic.h:55-57 *)
  | PostDec => (wrap w (v - 1), v)                      (* cyclic.h:58-60 *)
  | AddInt o => (wrap w (v + o), wrap w (v + o))        (* cyclic.h:62-66 *)
  | SubInt o => (wrap w (v - o), wrap w (v - o))        (* cyclic.h:67-71 *)
  | AddCyc o => (cyc_add w v o, cyc_add w v o)          (* cyclic.h:43-45, the result stored back *)
  | SubCyc o => (cyc_sub w v o, cyc_sub w v o)          (* cyclic.h:46-48, the result stored back *)
  end%Z.
Fixpoint cyc_run (w v : Z) (ops : list cop) : Z * list Z :=
  match ops with
  | [] => (v, [])
  | o :: ops' => let (v', r) := cyc_step w v o in let (v'', rs) := cyc_run w v' ops' in (v'', r :: rs)
  end.
(** cyclic.h:85-90 operator== and operator!= *)
Definition cyc_eq (a b : Z) : bool := (a =? b)%Z.
Definition cyc_ne (a b : Z) : bool := negb (a =? b)%Z.

(** ** compressed_edge.h:64-66 merged_with; reversed is [rev_e] of M_Core, operator== is [cedge_equal] of M_Inspect. *)
Definition merged_with (e other : cedge) : cedge := mkE (efrom e) (eto other) (N.lxor (eobs e) (eobs other)).
(** compressed_edge.cc:21-23 operator!= *)
Definition cedge_differs (e f : cedge) : bool := negb (cedge_equal f e).

(** region_edge.cc:17-19 and match.cc:17-19: RegionEdge and Match, a region and an edge *)
Definition region_edge_equal (a b : option nat * cedge) : bool := same_opt (fst a) (fst b) && cedge_equal (snd a) (snd b).
(** alternating_tree.cc:32-34: AltTreeEdge, only the edge is compared *)
Definition tree_edge_equal (a b : option nat * cedge) : bool := cedge_equal (snd a) (snd b).

(** mwpm_event.cc:88-95 RegionHitRegionEventData::operator== *)
Definition hit_region_equal (r1 r2 : option nat) (e : cedge) (s1 s2 : option nat) (f : cedge) : bool :=
  if same_opt r1 s1 && same_opt r2 s2 && cedge_equal e f then true
  else same_opt r2 s1 && same_opt r1 s2 && cedge_equal e (rev_e f).
(** mwpm_event.cc:101-103 *)
Definition hit_boundary_equal (r : option nat) (e : cedge) (s : option nat) (f : cedge) : bool := same_opt r s && cedge_equal e f.
(** mwpm_event.cc:109-112 *)
Definition shatter_equal (b p c b' p' c' : nat) : bool := (b =? b') && (p =? p') && (c =? c').
(** mwpm_event.cc:130-145 MwpmEvent::operator==; an event type that does not exist (default: throw) is not a value of [mevent]. *)
Definition event_equal (x y : mevent) : bool :=
  match x, y with
  | NoEvent, NoEvent => true
  | HitRegion r1 r2 e, HitRegion s1 s2 f => hit_region_equal r1 r2 e s1 s2 f
  | HitBoundary r e, HitBoundary s f => hit_boundary_equal r e s f
  | BlossomShatter b p c, BlossomShatter b' p' c' => shatter_equal b p c b' p' c'
  | _, _ => false
  end.
(** mwpm_event.cc:147-149 *)
Definition event_differs (x y : mevent) : bool := negb (event_equal y x).

(** flood_check_event.h:49-57: the union of three pointers, the time, the type, which is any byte *)
Record check_event := mkCheck { ce_data : nat; ce_time : Z; ce_type : Z }.
(** flood_check_event.cc:19-34 operator== *)
Definition check_equal (x y : check_event) : outcome bool :=
  if cyc_ne (ce_time x) (ce_time y) || negb (ce_type x =? ce_type y)%Z then Ok false
  else if (ce_type x =? 1)%Z then Ok (ce_data x =? ce_data y)
  else if (ce_type x =? 2)%Z then Ok (ce_data x =? ce_data y)
  else if (ce_type x =? 3)%Z then Ok (ce_data x =? ce_data y)
  else if (ce_type x =? 0)%Z then Ok true
  else Throw.
(** flood_check_event.cc:66-68 operator!= *)
Definition check_differs (x y : check_event) : outcome bool := bindO (check_equal y x) (fun b => Ok (negb b)).

(** ** mwpm.cc:425-441: MatchingResult.  The weight is a 64-bit integer; overflow is not modelled. *)
Definition matching_result : Type := N * Z.
Definition result_zero : matching_result := (0%N, 0%Z).
Definition result_add (a b : matching_result) : matching_result := (N.lxor (fst a) (fst b), (snd a + snd b)%Z).
(** mwpm_decoding.cc:19-51: ExtendedMatchingResult.  The assertion on the sizes is not compiled into a release; reading beyond the end of the
    other vector is undefined behaviour. *)
Definition extended_result : Type := list Z * Z.
Definition extended_zero (n : nat) : extended_result := (repeat 0%Z n, 0%Z).
Fixpoint xor_into (a b : list Z) : outcome (list Z) :=
  match a, b with
  | [], _ => Ok []
  | _ :: _, [] => UB
  | x :: a', y :: b' => bindO (xor_into a' b') (fun r => Ok (Z.lxor x y :: r))
  end.
Definition extended_add (a b : extended_result) : outcome extended_result := bindO (xor_into (fst a) (fst b)) (fun l => Ok (l, (snd a + snd b)%Z)).
(** varying.inl:159-167: Varying::operator== and operator!=, on the packed words *)
Definition varying_equal (a b : Z) : bool := (a =? b)%Z.
Definition varying_differs (a b : Z) : bool := negb (a =? b)%Z.
