(** A decoder used for several decodes: what an exception leaves behind (driver/mwpm_decoding.cc:82-146,
    matcher/mwpm.cc:471-479).  The functions of M_Core.v lose the state when an exception is thrown; here it is
    kept. *)
From Coq Require Import ZArith NArith List Bool Arith.
From Verif Require Import M_Base M_Varying M_Tracker M_Core.
Import ListNotations.
Local Open Scope nat_scope.

Inductive response :=
| Answer (r : result)
| NoMatching            (* "No perfect matching could be found" *)
| Invalid               (* any other exception *)
| Undefined             (* undefined behaviour, or an exception inside the main loop or the extraction *)
| OutOfFuel.

Section Session.
Variable G : graph.
Variable fuel : nat.
Variable orc : nat -> nat.
Variable A : ints.
Variable I : neg_info.

(** matcher/mwpm.cc:471-479 Mwpm::reset: every node is reset, the queue is cleared (cur_time is kept), the
    arenas are destroyed, which leaves both of their vectors empty. *)
Definition mwpm_reset (s : state) : state :=
  let s1 := fold_left reset_node (seq 0 (length G)) s in
  mkState (nd s1) (rg s1) (ma s1) (tr s1) (mkS [] 0) (mkS [] 0)
          (mkQ (ntr (sc s1)) (rtr (sc s1)) [] (now (sc s1)) (tick (sc s1))).

(** Loops over detection events that may throw: the state when the loop ends, and whether it threw. *)
Fixpoint fold_throw (f : state -> nat -> outcome state) (l : list nat) (s : state) : state * bool :=
  match l with
  | [] => (s, false)
  | v :: l' => match f s v with Ok s' => fold_throw f l' s' | _ => (s, true) end
  end.
Definition add_events_st (s : state) (evs : list nat) : state * bool :=
  match neg_events I with
  | [] => fold_throw (add_plain G A I) evs s
  | _ =>
      let s1 := fold_left (fun s v => set_mark s v 1%Z) (neg_events I) s in
      let (s2, thrown) := fold_throw (add_marked G A I) evs s1 in
      if thrown then (s2, true) else (fold_left (add_left G A) (neg_events I) s2, false)
  end.

(** mwpm_decoding.cc:82-194: one decode, with the state it leaves *)
Definition decode_st (s : state) (evs : list nat) : state * response :=
  match que (sc s) with
  | _ :: _ => (s, Invalid)
  | [] =>
      let s0 := set_sc s (mkQ (ntr (sc s)) (rtr (sc s)) [] 0%Z (tick (sc s))) in
      let (s1, thrown) := add_events_st s0 evs in
      if thrown then (s1, Invalid)
      else match main_loop G fuel orc A fuel s1 with
           | Ok s2 =>
               if next (ta s2) =? length (free (ta s2)) then
                 match extract_all fuel A s2 evs with
                 | Ok x =>
                     match (match neg_events I with [] => Ok (fst x, (0%N, 0%Z, [])) | _ => extract_all fuel A (fst x) (neg_events I) end) with
                     | Ok y =>
                         let '(o, w, l) := res_add (snd x) (snd y) in
                         (fst y, Answer (N.lxor o (neg_obs I), (w + neg_sum I)%Z, l))
                     | Fuel => (fst x, OutOfFuel)
                     | _ => (fst x, Undefined)
                     end
                 | Fuel => (s2, OutOfFuel)
                 | _ => (s2, Undefined)
                 end
               else (mwpm_reset s2, NoMatching)
           | Fuel => (s1, OutOfFuel)
           | _ => (s1, Undefined)
           end
  end.
End Session.
