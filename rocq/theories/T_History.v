(** C60, C61: num_fault_ids and the flag for error probabilities, exactly. *)
From Coq Require Import Arith ZArith Reals List Bool Lia.
From Verif Require Import M_UserGraph S_UserGraph P_UserGraph S_History P_History T_UserGraph.
Import ListNotations.

(** C60: after any calls, num_fault_ids is the largest of: the number given on construction, the numbers
    ensured by calls, and one more than each fault id of each call that added a new edge. (Fault ids given
    to an edge that was there already do not count, whatever the strategy: see C27.) *)
Theorem C60_num_fault_ids_exact :
  forall (N : numops) n k (ops : list (op N)), greatest k (asked_for ops) (nobs (run (new_graph N n k) ops)).
Proof. exact @num_fault_ids_exact. Qed.
Print Assumptions C60_num_fault_ids_exact.

(** The fault id 7, given for an edge that is there already, does not count; the fault id 2 does. *)
Example C60_ex : nobs (run (new_graph ZN 2 0) ex_ops) = 3 /\ asked_for ex_ops 3 /\ ~ asked_for ex_ops 8.
Proof.
  pose proof (C60_num_fault_ids_exact ZN 2 0 ex_ops) as H.
  assert (E : nobs (run (new_graph ZN 2 0) ex_ops) = 3) by reflexivity. rewrite E in H. destruct H as (_ & [H|H] & H3); [discriminate|].
  split; [exact E|]. split; [exact H|]. intros H8. apply H3 in H8. lia.
Qed.

(** matching.py:1765 documents that after ensure_num_fault_ids(n) num_fault_ids is max(n, max_id), with max_id the largest fault id of
    any edge.  It is max(n, max_id + 1). *)
Theorem C60_documented_refuted :
  exists (ops : list (op ZN)) n max_id, let g := run (new_graph ZN 0 0) (ops ++ [@OpMinObs ZN n]) in
  (exists e, In e (edges g) /\ In max_id (obs e)) /\ (forall e i, In e (edges g) -> In i (obs e) -> i <= max_id) /\ nobs g <> Nat.max n max_id.
Proof.
  exists [AddZ 0 (Some 1) [2; 4] 5%Z 1%Z DISALLOW; AddZ 1 None [1] 2%Z 1%Z DISALLOW], 3, 4. cbn. split; [eexists; split; [left; reflexivity|cbn; lia]|].
  split; [|discriminate]. intros e i [<-|[<-|[]]]; cbn; lia.
Qed.
Print Assumptions C60_documented_refuted.

(** C61: the flag is true if and only if at no time up to now an edge had no error probability in [0,1]
    (NaN aside). *)
Theorem C61_flag_is_history :
  forall (N : numops), (forall p, p_valid N p = negb (p_outside N p)) ->
  forall n k (ops : list (op N)),
  allp (run (new_graph N n k) ops) = true <->
  forall before after, ops = before ++ after -> every_edge_has_probability (run (new_graph N n k) before).
Proof. exact @flag_is_history. Qed.
Print Assumptions C61_flag_is_history.

Example C61_ex : let ops := [AddZ 0 (Some 1) [] 5%Z 1%Z DISALLOW; AddZ 1 None [] 2%Z (-1)%Z DISALLOW; AddZ 1 None [] 2%Z 1%Z REPLACE] in
  (forall p, p_valid ZN p = negb (p_outside ZN p)) /\ allp (run (new_graph ZN 2 0) ops) = false /\
  every_edge_has_probability (run (new_graph ZN 2 0) ops) /\
  ~ every_edge_has_probability (run (new_graph ZN 2 0) (firstn 2 ops)).
Proof.
  split; [|split; [reflexivity|split]].
  - intros p. cbn. rewrite !Z.leb_antisym, negb_orb. reflexivity.
  - intros e H. cbn in H. destruct H as [<-|[<-|[]]]; reflexivity.
  - intros H. specialize (H _ (or_intror (or_introl eq_refl))). discriminate.
Qed.
