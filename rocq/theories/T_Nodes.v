(** C70: get_nodes_on_shortest_path_from_source gives the nodes of a shortest path, at any time.

    In any series of calls that change a graph, decode with it and ask for the nodes on a shortest path between two of its nodes, or a node and
    the boundary: every such question ends, and the reply lists the nodes of a path in the graph from the source to the destination, in order,
    without the boundary nodes; no path is lighter (exactly, if the weights are integers; otherwise up to the rounding of weights).  If both ends
    are at the boundary there is an exception.  All other calls are answered as if the question had not been asked. *)
From Coq Require Import Reals ZArith List Bool Arith Lia Lra.
From Verif Require Import M_Base M_Bits M_Core M_CoreHeap M_Merge M_Matching S_Matching M_Nodes P_Nodes M_UserGraph S_UserGraph P_Pipeline S_Pipeline S_Nodes.
From Verif Require T_Pipeline.
Import ListNotations.
Local Open Scope nat_scope.

Theorem C70_session : forall n k cs, all_fair_n (new_graph RN n k) cs ->
  exists K m' rs, (forall fuel, K <= fuel -> nrun fuel cyclic_ints (new_matching (new_graph RN n k)) cs = Ok (m', rs)) /\ all_right_n (new_graph RN n k) cs rs.
Proof. exact nodes_session. Qed.
Print Assumptions C70_session.
(** The exception "node ... is not in the graph" comes too late: memory past the end of the list of nodes has been read before. *)
Theorem C70_absent_nodes_undefined : forall n k cs src dst, let g := fold_left after_n cs (new_graph RN n k) in
  all_fair_n (new_graph RN n k) cs -> fault_ids_in_range g -> scalable g -> ~ present g src \/ ~ present g dst ->
  exists K, forall fuel, K <= fuel -> nrun fuel cyclic_ints (new_matching (new_graph RN n k)) (cs ++ [PathNodes src dst]) = UB.
Proof. exact outside. Qed.
Print Assumptions C70_absent_nodes_undefined.
(** Nor is there an exception if no path leads to the destination, or if it is the source: a null pointer is followed. *)
Theorem C70_no_path_undefined : forall b, match b with Some v => v < 2 | None => True end ->
  forall fuel, 1 <= fuel -> nrun fuel cyclic_ints (new_matching (new_graph RN 2 0)) [PathNodes (Some 0) b] = UB.
Proof. exact bare_search. Qed.
Print Assumptions C70_no_path_undefined.

(** ** Cases that meet the hypotheses *)
(** Two nodes, joined with weight 1, with boundary edges of weights 5 and 1; asked from node 0 to the boundary, from the boundary to node 0, then
    from the boundary to itself. *)
Definition path_calls : list ncall :=
  [Call (Modify (@OpAdd RN 0 (Some 1) [] 1%R (-1)%R DISALLOW)); Call (Modify (@OpAdd RN 1 None [] 1%R (-1)%R DISALLOW)); Call (Modify (@OpAdd RN 0 None [] 5%R (-1)%R DISALLOW));
   PathNodes (Some 0) None; PathNodes None (Some 0); PathNodes None None].
Definition pe01 : uedge RN := @mkE RN 0 (Some 1) [] 1%R (-1)%R.
Definition pe1 : uedge RN := @mkE RN 1 None [] 1%R (-1)%R.
Definition pe0 : uedge RN := @mkE RN 0 None [] 5%R (-1)%R.
Lemma path_graph : let g := fold_left after_n (firstn 3 path_calls) (new_graph RN 0 0) in edges g = [pe01; pe1; pe0] /\ bnodes g = [] /\ num_nodes g = 2.
Proof. unfold path_calls. cbn [firstn fold_left after_n after apply_op]. unfold py_add. rewrite !T_Pipeline.fits by lra. repeat split; reflexivity. Qed.
(** Every shortest path from node 0 to the boundary has the nodes 0 and 1. *)
Lemma path_only : forall (g : ugraph RN) l, edges g = [pe01; pe1; pe0] -> bnodes g = [] -> shortest g 0 None l -> l = [0; 1].
Proof.
  intros g l E1 E2 (vs & es & -> & HR & HS).
  assert (R : route g 0 [1] None [pe01; pe1]) by (cbn; unfold shows, boundary_edge_of; rewrite E1, E2; cbn; tauto).
  destruct (HS [1] [pe01; pe1] R) as [_ HI]. specialize (HI ltac:(intros e; rewrite E1; intros [<-|[<-|[<-|[]]]]; [exists 1%Z|exists 1%Z|exists 5%Z]; reflexivity)).
  change (total_weight [pe01; pe1]) with (1 + (1 + 0))%R in HI.
  (* every step between nodes weighs 1 and leads to the other node *)
  assert (ST : forall u v e, In e (edges g) -> shows g (u, Some v) e -> weight e = 1%R /\ ((u = 0 /\ v = 1) \/ (u = 1 /\ v = 0))).
  { intros u v e He. rewrite E1 in He. unfold shows. cbn [fst snd]. intros (_ & _ & H). destruct He as [<-|[<-|[<-|[]]]]; cbn in H; (split; [|]); destruct H as [[H1 H2]|[H1 H2]]; try congruence; auto; injection H2 as H2; auto. }
  assert (SB : forall u e, In e (edges g) -> shows g (u, None) e -> (u = 1 /\ weight e = 1%R) \/ (u = 0 /\ weight e = 5%R)).
  { intros u e He. rewrite E1 in He. unfold shows, boundary_edge_of. cbn [fst snd]. intros (_ & H). rewrite E2 in H. destruct He as [<-|[<-|[<-|[]]]]; cbn in H; destruct H as [[H1 H2]|[H1 H2]]; try rewrite E2 in H2; try (exfalso; exact H2); auto. }
  assert (TW : forall (e : uedge RN) es, total_weight (e :: es) = (weight e + total_weight es)%R) by reflexivity.
  assert (POS : forall vs u x es, route g u vs x es -> (0 <= total_weight es)%R /\ (x = None -> (1 <= total_weight es)%R)).
  { clear - ST SB TW. induction vs as [|v vs IH]; intros u x es H; destruct es as [|e es]; cbn [route] in H; try contradiction.
    - subst x. split; [apply Rle_refl|discriminate].
    - destruct es; [|contradiction]. destruct H as (_ & H1 & H2). rewrite TW. change (total_weight (@nil (uedge RN))) with 0%R. destruct (SB u e H1 H2) as [[_ ->]|[_ ->]]; split; intros; lra.
    - destruct H as (H1 & H2 & H3). rewrite TW. destruct (ST u v e H1 H2) as [-> _]. destruct (IH v x es H3) as [P1 P2]. split; [lra|]. intros N. specialize (P2 N). lra. }
  destruct vs as [|v vs]; destruct es as [|e es]; cbn [route] in HR; try contradiction; [discriminate| |].
  - destruct es; [|contradiction]. destruct HR as (_ & H1 & H2). rewrite TW in HI. change (total_weight (@nil (uedge RN))) with 0%R in HI. destruct (SB 0 e H1 H2) as [[Q _]|[_ Q]]; [discriminate|rewrite Q in HI; lra].
  - destruct HR as (H1 & H2 & H3). destruct (ST 0 v e H1 H2) as [We [[_ ->]|[Q _]]]; [|discriminate]. rewrite TW, We in HI. destruct vs as [|v' vs]; [reflexivity|]. exfalso.
    destruct es as [|e' es]; cbn [route] in H3; [contradiction|]. destruct H3 as (H4 & H5 & H6). destruct (ST 1 v' e' H4 H5) as [We' _]. rewrite TW, We' in HI. destruct (POS _ _ _ _ H6) as [_ P]. specialize (P eq_refl). lra.
Qed.
Example C70_session_example : all_fair_n (new_graph RN 0 0) path_calls /\
  forall rs, all_right_n (new_graph RN 0 0) path_calls rs -> skipn 3 rs = [NodeList [0; 1]; NodeList [1; 0]; NodesRaised].
Proof.
  pose proof path_graph as PG. cbv zeta in PG. set (g := fold_left after_n _ _) in PG. destruct PG as (E1 & E2 & E3).
  assert (R : exists vs es, route g 0 vs None es) by (exists [1], [pe01; pe1]; cbn [route]; unfold shows, boundary_edge_of; rewrite E1, E2; cbn; tauto).
  split.
  - unfold path_calls. cbn [all_fair_n fair_nodes fair after_n]. fold g. split; [exact I|]. split; [exact I|]. split; [exact I|].
    change (after (after (after (new_graph RN 0 0) (Modify (@OpAdd RN 0 (Some 1) [] 1%R (-1)%R DISALLOW))) (Modify (@OpAdd RN 1 None [] 1%R (-1)%R DISALLOW))) (Modify (@OpAdd RN 0 None [] 5%R (-1)%R DISALLOW))) with g.
    clearbody g. assert (C : fault_ids_in_range g /\ scalable g /\ (forall e, In e (edges g) -> (0 <= weight e)%R)).
    { split; [|split].
      - intros e o. rewrite E1. intros [<-|[<-|[<-|[]]]] [].
      - apply (scalable_some g pe01); [rewrite E1; now left|]. cbn. rewrite Rabs_right; lra.
      - intros e. rewrite E1. intros [<-|[<-|[<-|[]]]]; cbn; lra. }
    destruct C as (C1 & C2 & C3). split; [|split; [|split; [|exact I]]]; (split; [cbn; rewrite ?E3; try exact I; lia|]); (split; [cbn; rewrite ?E3; try exact I; lia|]); (split; [exact C1|]); (split; [exact C2|]); (split; [exact C3|]);
      intros a x t [(-> & H & _ & Hx)|(-> & H & _ & Hs & ->)]; try discriminate.
    + injection H as <-. destruct Hx as [[_ ->]|[N _]]; [split; [discriminate|exact R]|elim N; exact I].
    + injection H as <-. split; [discriminate|exact R].
  - intros rs H. unfold path_calls in H. destruct rs as [|r1 [|r2 [|r3 [|r4 [|r5 [|r6 [|r7 rs]]]]]]]; cbn [all_right_n] in H; try tauto. destruct H as (_ & _ & _ & H4 & H5 & H6 & _). cbn [skipn]. cbn [after_n] in H4, H5, H6.
    change (after (after (after (new_graph RN 0 0) (Modify (@OpAdd RN 0 (Some 1) [] 1%R (-1)%R DISALLOW))) (Modify (@OpAdd RN 1 None [] 1%R (-1)%R DISALLOW))) (Modify (@OpAdd RN 0 None [] 5%R (-1)%R DISALLOW))) with g in H4, H5, H6.
    clearbody g. cbn [right_nodes] in H4, H5, H6. destruct (proj1 H4 0 None false) as (l & -> & L); [left; rewrite E2; cbn; tauto|]. destruct (proj1 H5 0 None true) as (l' & -> & L'); [right; rewrite E2; cbn; tauto|].
    rewrite (path_only g l E1 E2 L), (path_only g l' E1 E2 L'). rewrite (proj2 H6 I I). reflexivity.
Qed.
(** The hypotheses of the second theorem, after the same calls. *)
Example C70_absent_example : let g := fold_left after_n (firstn 3 path_calls) (new_graph RN 0 0) in
  all_fair_n (new_graph RN 0 0) (firstn 3 path_calls) /\ fault_ids_in_range g /\ scalable g /\ ~ present g (Some 2).
Proof.
  pose proof path_graph as PG. cbv zeta in *. split; [cbn; auto|]. set (g := fold_left after_n _ _) in *. clearbody g. destruct PG as (E1 & E2 & E3). split; [|split].
  - intros e o. rewrite E1. intros [<-|[<-|[<-|[]]]] [].
  - apply (scalable_some g pe01); [rewrite E1; now left|]. cbn. rewrite Rabs_right; lra.
  - cbn. rewrite E3. lia.
Qed.
