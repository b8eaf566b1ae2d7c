(** The events made by negative weights stay behind if only the caller's events are taken apart. *)
From Coq Require Import ZArith NArith List Bool Arith Lia.
From Verif Require Import M_Base M_RadixHeap M_Tracker M_Core M_Session M_CoreHeap M_Extract S_Session M_Build M_Flip T_ToEdges.
Import ListNotations.
Local Open Scope nat_scope.
Lemma pairs_left_behind : exists g s' h' l,
  build 71 4 te_ex = Ok g /\ neg_events (neg_info_of 71 g []) <> [] /\
  decode_match_edges_h (adj g) 200 cyclic_ints (neg_info_of 71 g []) init_state empty_heap [0; 2]%nat = Ok (s', h', l) /\ ~ idle (adj g) s'.
Proof.
  destruct (build 71 4 te_ex) as [g| | |] eqn:Eg; try discriminate. destruct (decode_match_edges_h (adj g) 200 cyclic_ints (neg_info_of 71 g []) init_state empty_heap [0; 2]) as [[[s' h'] l]| | |] eqn:E.
  2-4: exfalso; revert E; vm_compute in Eg; injection Eg as <-; vm_compute; discriminate.
  exists g, s', h', l. split; [reflexivity|]. split; [vm_compute in Eg; injection Eg as <-; vm_compute; discriminate|]. split; [exact E|]. intros [_ HN _ _].
  assert (X : match decode_match_edges_h (adj g) 200 cyclic_ints (neg_info_of 71 g []) init_state empty_heap [0; 2] with Ok (s, _, _) => arr (nd s) 3 | _ => None end <> None) by (vm_compute in Eg; injection Eg as <-; vm_compute; discriminate).
  rewrite E in X. apply X. apply (HN 3). vm_compute in Eg. injection Eg as <-. cbn. lia.
Qed.
