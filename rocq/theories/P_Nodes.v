(** The nodes on a shortest path. *)
From Coq Require Import Reals ZArith NArith List Bool Arith Lia Lra Permutation.
From Verif Require Import M_Base M_Core M_CoreHeap M_Failing M_Session S_Core S_Session S_CoreHeap M_Build S_Build P_Build P_Convert P_Convert2 P_UserCorr P_CorePath
  M_Flip S_Flip P_Flip M_Search S_Search M_ToEdges S_ToEdges P_ToEdges P_ToEdges2 P_SearchGraph M_SearchHeap S_SearchHeap P_SearchHeap2
  M_Discretise P_Discretise M_Merge P_Merge M_Pipeline M_PipelineHeap M_Bits S_Bits P_Bits M_UserGraph S_UserGraph P_UserGraph S_Pipeline S_PipelineHeap P_Pipeline P_Pipeline2 P_Pipeline3 P_PipelineHeap M_Matching S_Matching P_Matched P_Matching
  M_Nodes S_Nodes.
Import ListNotations.
Local Open Scope nat_scope.

Section Graph.
Variable g : ugraph RN.
Hypothesis INV : Inv g.
Hypothesis FL : flags_ok RN g.
Variables (d : decoder) (c : R) (sg : sgraph).
Hypothesis DO : decoder_of g d c sg.
Hypothesis POS : forall e, In e (edges g) -> (0 <= discretise c (weight e))%Z.
Let n := num_nodes g.
Let B := fun v => is_boundary_node g (Some v).
Let E := map (discretised_edge c) (edges g).
Let C := convert_all n B E.
Let SG := sadj sg.
Let HS : sbuild n C = Ok sg := do_sg _ _ _ _ DO.

Lemma C_pos : forall y, In y C -> (0 <= s_weight y)%Z.
Proof.
  intros y Hy. destruct (orig n B E (E_below g INV c) y Hy) as (e' & H1 & H2 & _). apply in_map_iff in H1 as (e & <- & He). rewrite <- H2. exact (POS e He).
Qed.
(** An entry of the search graph is an edge of the user. *)
Lemma entry_edge : forall u i x w o, nth_error (M_Core.nbrs SG u) i = Some (x, w, o) -> exists e, In e (edges g) /\ shows g (u, x) e /\ w = discretise c (weight e).
Proof.
  intros u i x w o H. destruct (proj1 (search_entries n C sg HS u x w o (marks_of sg u i))) as (a & y & z & obs & H1 & _ & H3 & H4 & _); [exists i; auto|].
  destruct (orig n B E (E_below g INV c) _ H1) as (e' & He'). destruct (proj1 (in_map_iff _ _ _) (proj1 He')) as (e & Ee & He). subst e'. exists e. split; [exact He|]. split.
  - exact (shows_pair g INV FL c (u, x) (a, y, z, obs) e He H1 H3 He').
  - destruct He' as (_ & W & _). change (s_weight (discretised_edge c e)) with (discretise c (weight e)) in W. change (s_weight (a, y, z, obs)) with z in W. pose proof (POS e He). lia.
Qed.
Lemma edge_entry : forall a x z obs u y, In (a, x, z, obs) C -> x <> Some a -> same_edge (u, y) (a, x) = true -> exists o, In (y, z, o) (M_Core.nbrs SG u).
Proof.
  intros a x z obs u y H N S. pose proof (C_pos _ H) as P. cbn in P.
  assert (Ho : forall k, N.testbit (mask_of 0 obs) (N.of_nat k) = Nat.odd (count_occ Nat.eq_dec obs k)) by (intros k; apply mask_bit; lia). exists (mask_of 0 obs).
  destruct (proj2 (search_entries n C sg HS u y z (mask_of 0 obs) (if (z <? 0)%Z then 2%N else 0%N))) as (i & Hi & _).
  - exists a, x, z, obs. repeat split; auto. lia.
  - exact (nth_error_In _ _ Hi).
Qed.

Lemma step_entry : forall u v e, In e (edges g) -> shows g (u, Some v) e -> u = v \/ exists o, In (Some v, discretise c (weight e), o) (M_Core.nbrs SG u).
Proof.
  intros u v e He H. destruct (Nat.eq_dec u v) as [->|N]; [now left|right]. destruct (step_path g INV FL c u (Some v) e (conj He H)) as (a & y & w & o & H1 & H2 & H3).
  specialize (H3 ltac:(discriminate)). change (s_weight (discretised_edge c e)) with (discretise c (weight e)) in H3. subst w.
  apply (edge_entry a y _ o u (Some v) H1); [destruct H2 as [[-> ->]|[-> E2]]; congruence|]. apply same_edge_spec. destruct H2 as [[-> ->]|[-> E2]]; [now left|right; cbn; auto].
Qed.
Lemma boundary_entry : forall u e, In e (edges g) -> shows g (u, None) e -> exists w o, In (None, w, o) (M_Core.nbrs SG u) /\ (w <= discretise c (weight e))%Z.
Proof.
  intros u e He H. unfold shows in H. cbn [fst snd] in H. destruct (bkey_of_boundary g FL c e u H) as (w & o & Ec). assert (In (discretised_edge c e) E) as HE by now apply in_map.
  destruct (P_UserCorr.keep n B E (E_below g INV c) (discretised_edge c e) HE ltac:(unfold B; congruence)) as ([[[a y] w'] o'] & K1 & K2 & _ & K4). unfold B in K4. rewrite Ec in K4. cbn [fst snd] in K4. destruct K4 as [-> ->].
  destruct (edge_entry u None w' o' u None K1 ltac:(discriminate)) as (o1 & H1); [apply same_edge_spec; now left|]. exists w', o1. split; [exact H1|exact K2].
Qed.

(** ** From paths to routes, and back *)
Definition stop (x : option nat) : list nat := match x with Some b => [b] | None => [] end.
Lemma leads_route : forall p u x, leads SG u p x -> exists vs es, map fst p ++ stop x = u :: vs /\ route g u vs x es /\ s_total (map (discretised_edge c) es) = weight_of (edges_at SG p).
Proof.
  induction p as [|[v i] p IH]; intros u x H; cbn [leads] in H.
  - subst x. exists [], []. repeat split.
  - destruct H as [-> H]. destruct (nth_error (M_Core.nbrs SG u) i) as [[[[u'|] w] o]|] eqn:En; [| |destruct H].
    + destruct (IH u' x H) as (vs & es & H1 & H2 & H3). destruct (entry_edge u i (Some u') w o En) as (e & E1 & E2 & E3). exists (u' :: vs), (e :: es). split; [cbn; now rewrite H1|]. split; [cbn; auto|].
      change (discretise c (weight e) + s_total (map (discretised_edge c) es) = weight_of (edge_at SG (u, i) :: edges_at SG p))%Z. unfold edge_at. rewrite En, H3, E3. destruct (u <? u'); reflexivity.
    + destruct H as [-> ->]. destruct (entry_edge u i None w o En) as (e & E1 & E2 & E3). exists [], [e]. split; [reflexivity|]. split; [cbn; auto|].
      change (discretise c (weight e) + 0 = weight_of [edge_at SG (u, i)])%Z. unfold edge_at. rewrite En, E3. cbn [weight_of]. lia.
Qed.
Lemma route_path : forall vs u x es, route g u vs x es -> forall a l o, walk SG a u l o -> exists w o', path SG a x w o' /\ (w <= l + s_total (map (discretised_edge c) es))%Z.
Proof.
  induction vs as [|v vs IH]; intros u x es H a l o W.
  - destruct es as [|e [|e' es]]; cbn [route] in H; [subst x; exists l, o; split; [exact W|cbn; lia]| |destruct H].
    destruct H as (-> & He & Hs). destruct (boundary_entry u e He Hs) as (w & ob & H1 & H2). exists (l + w)%Z, (N.lxor o ob). split; [exists u, l, o, w, ob; auto|].
    change (l + w <= l + (discretise c (weight e) + 0))%Z. lia.
  - destruct es as [|e es]; cbn [route] in H; [destruct H|]. destruct H as (He & Hs & HR). change (s_total (map (discretised_edge c) (e :: es))) with (discretise c (weight e) + s_total (map (discretised_edge c) es))%Z.
    destruct (step_entry u v e He Hs) as [->|(ob & Hi)].
    + destruct (IH v x es HR a l o W) as (w & o' & H1 & H2). exists w, o'. split; [exact H1|]. pose proof (POS e He). lia.
    + destruct (IH v x es HR a _ _ (walk_step SG a u l o v _ ob W Hi)) as (w & o' & H1 & H2). exists w, o'. split; [exact H1|]. lia.
Qed.
Lemma route_incl : forall vs u x es, route g u vs x es -> incl es (edges g).
Proof.
  induction vs as [|v vs IH]; intros u x es H.
  - destruct es as [|e [|e' es]]; cbn [route] in H; [intros y []|intros y [<-|[]]; tauto|destruct H].
  - destruct es as [|e es]; cbn [route] in H; [destruct H|]. destruct H as (He & Hs & HR). intros y [<-|Hy]; [exact He|exact (IH _ _ _ HR y Hy)].
Qed.
Lemma lighter : forall F F', incl F (edges g) -> incl F' (edges g) -> (s_total (map (discretised_edge c) F) <= s_total (map (discretised_edge c) F'))%Z -> no_heavier g F F'.
Proof.
  intros F F' HF HF' H. pose proof (c_pos g c (do_c _ _ _ _ DO)) as Hc.
  assert (L : (IZR (s_total (map (discretised_edge c) F)) / (2 * c) <= IZR (s_total (map (discretised_edge c) F')) / (2 * c))%R).
  { unfold Rdiv. apply Rmult_le_compat_r; [left; apply Rinv_0_lt_compat; lra|]. now apply IZR_le. }
  split.
  - intros M HM. pose proof (weight_error g c (do_c _ _ _ _ DO) F M HF HM) as E1. pose proof (weight_error g c (do_c _ _ _ _ DO) F' M HF' HM) as E2.
    apply Rabs_le_inv in E1. apply Rabs_le_inv in E2. rewrite plus_INR. lra.
  - intros HI. rewrite <- (weight_exact g c (do_c _ _ _ _ DO) F HF HI), <- (weight_exact g c (do_c _ _ _ _ DO) F' HF' HI). exact L.
Qed.

(** ** The search *)
Lemma search_wf : wf_graph SG /\ length SG = n /\ forall u x w o, In (x, w, o) (M_Core.nbrs SG u) -> (w <= max_weight)%Z.
Proof.
  pose proof (convert_all_fop n B E (E_fop g INV c)) as NP. assert (EV : forall e, In e C -> Z.even (s_weight e) = true) by (intros e He; exact (proj1 (C_even g INV d c sg DO e He))).
  destruct (sg_facts _ _ _ _ _ (do_mg _ _ _ _ DO) HS NP EV) as (g0 & G1 & G2 & _ & _ & _ & WF). split; [exact WF|]. split.
  - unfold SG. rewrite G2. destruct (build_built _ _ _ _ G1) as (_ & L & _). exact L.
  - intros u x w o H. apply In_nth_error in H as (i & H). destruct (proj1 (search_entries n C sg HS u x w o (marks_of sg u i))) as (a & y & z & obs & H1 & _ & _ & -> & _); [exists i; auto|].
    exact (proj2 (C_even g INV d c sg DO _ H1)).
Qed.
Lemma search_nodes : forall a x s h, a < n -> match x with Some b => b < n /\ b <> a | None => True end -> (exists vs es, route g a vs x es) -> search_idle s -> rested h ->
  exists K s' h' p, (forall fuel, K <= fuel -> path_from_source_h SG fuel cyclic_ints s h a x = Ok (s', h', p)) /\ search_idle s' /\ rested h' /\ shortest g a x (map fst p ++ stop x).
Proof.
  intros a x s h Ha Hx (vs0 & es0 & HR) HI HH. destruct search_wf as (WF & L & MW).
  assert (V : valid_query SG a x) by (split; [lia|destruct x; [rewrite L; exact Hx|exact I]]).
  destruct (route_path vs0 a x es0 HR a 0%Z 0%N (walk_nil SG a)) as (w0 & o0 & P0 & _).
  destruct (heap_search SG s h a x WF MW V HI HH (ex_intro _ w0 (ex_intro _ o0 P0))) as (K & s' & h' & cells & p & H1 & H2 & H3 & H4 & _ & H6 & H7).
  exists K, s', h', p. split; [intros f Hf; exact (proj2 (H1 f Hf))|]. split; [exact H2|]. split; [exact H3|].
  destruct (leads_route p a x H4) as (vs & es & R1 & R2 & R3). exists vs, es. split; [exact R1|]. split; [exact R2|]. intros vs' es' HR'.
  apply lighter; [exact (route_incl _ _ _ _ R2)|exact (route_incl _ _ _ _ HR')|]. destruct (route_path vs' a x es' HR' a 0%Z 0%N (walk_nil SG a)) as (w & o & P & LW).
  specialize (H7 w o P). rewrite (weight_perm _ _ H6) in H7. rewrite R3. lia.
Qed.
End Graph.

(** ** Calls *)
Lemma reads : forall g x, present g x -> boundary_read g x = Ok (is_boundary_node g x) /\ not_in_graph g x = false.
Proof.
  intros g [v|] H; [|split; reflexivity]. cbn [present] in H. unfold boundary_read, not_in_graph. rewrite (proj2 (Nat.ltb_lt _ _) H). split; [reflexivity|]. apply Nat.leb_gt. exact H.
Qed.
Lemma boundary_is : forall (g : ugraph RN) x, flags_ok RN g -> is_boundary_node g x = true <-> at_boundary g x.
Proof. intros g [v|] FL; cbn [at_boundary]; [apply (bd_bnodes g FL)|split; [intros _; exact I|reflexivity]]. Qed.
Lemma boundary_no : forall (g : ugraph RN) x, flags_ok RN g -> is_boundary_node g x = false <-> ~ at_boundary g x.
Proof. intros g x FL. rewrite <- (boundary_is g x FL). destruct (is_boundary_node g x); split; congruence. Qed.
Lemma fits_reads : forall m g x, fits m g -> present g x -> boundary_read (m_graph m) x = Ok (is_boundary_node g x) /\ not_in_graph (m_graph m) x = false.
Proof. intros m g x FT H. destruct (f_graph _ _ FT) as [b ->]. exact (reads g x H). Qed.
Lemma ready_search : forall d r q h, ready d r -> search_idle q -> rested h -> ready d (mkRun (r_state r) (r_heap r) q h (r_marks r)).
Proof. intros d r q h [R1 R2 R3 R4 R5] H1 H2. constructor; auto. Qed.

Lemma route_at : forall (g : ugraph RN) k vs u x es, route (at_nobs g k) u vs x es <-> route g u vs x es.
Proof.
  intros g k. induction vs as [|v vs IH]; intros u x es; [destruct es as [|e [|e' es]]; reflexivity|]. destruct es as [|e es]; [reflexivity|]. cbn [route]. rewrite IH. reflexivity.
Qed.
Lemma shortest_at : forall (g : ugraph RN) k a x l, shortest (at_nobs g k) a x l -> shortest g a x l.
Proof.
  intros g k a x l (vs & es & H1 & H2 & H3). exists vs, es. split; [exact H1|]. split; [now apply (route_at g k)|]. intros vs' es' H. exact (H3 vs' es' (proj2 (route_at g k vs' a x es') H)).
Qed.
Section Step.
Variables (g : ugraph RN).
Hypothesis IDS : fault_ids_in_range g.
Hypothesis SC : scalable g.
Hypothesis POS : forall e, In e (edges g) -> (0 <= weight e)%R.
Lemma from_node : forall m a dst depth, fits m g -> a < num_nodes g -> present g dst -> ~ In a (bnodes g) ->
  let x := if is_boundary_node g dst then None else dst in x <> Some a -> (exists vs es, route g a vs x es) ->
  exists K m' l, (forall fuel, K <= fuel -> get_nodes fuel cyclic_ints (S depth) m (Some a) dst = Ok (m', NodeList l)) /\ fits m' g /\ shortest g a x l.
Proof.
  intros m a dst depth FT Ha Hd Na x Nx HR. destruct (get_search_ok m g FT IDS SC) as (m1 & d & r & k & c & sg & G1 & G2 & G3 & G4 & G5 & G6 & _).
  assert (ES : search_of d = sg) by (unfold with_search in G6; cbn [d_search] in G6; injection G6 as G6; exact G6).
  pose proof (pos_kept g c (do_c _ _ _ _ G5) POS) as PK. destruct G4 as [R1 R2 R3 R4 R5].
  assert (Vx : match x with Some b => b < num_nodes g /\ b <> a | None => True end).
  { unfold x in *. destruct (is_boundary_node g dst); [exact I|]. destruct dst as [b|]; [|exact I]. split; [exact Hd|congruence]. }
  assert (HR' : exists vs es, route (at_nobs g k) a vs x es) by (destruct HR as (vs & es & HR); exists vs, es; now apply route_at).
  destruct (search_nodes (at_nobs g k) (f_inv _ _ FT) (f_flags _ _ FT) (with_search d) c sg G5 PK a x (r_search r) (r_sheap r) Ha Vx HR' R3 R4) as (K & q & h & p & S1 & S2 & S3 & S4).
  exists K, (M_Matching.keep m1 d (mkRun (r_state r) (r_heap r) q h (r_marks r))), (map fst p ++ stop x). split; [|split; [|exact (shortest_at g k _ _ _ S4)]].
  - intros fuel Hf. cbn [get_nodes]. rewrite G1. cbn [unless_thrown].
    destruct (fits_reads m1 g (Some a) G2 Ha) as [B1 B2]. destruct (fits_reads m1 g dst G2 Hd) as [B3 B4]. rewrite B1, B2, B3, B4. cbn [bindO].
    rewrite (proj2 (boundary_no g (Some a) (f_flags _ _ FT)) Na). cbn [negb]. fold x. rewrite ES, (S1 fuel Hf). cbn [bindO]. reflexivity.
  - apply fits_keep; [exact G2|exists k, c, sg; exact G3|]. apply ready_search; [constructor; assumption|exact S2|exact S3].
Qed.
Lemma to_node : forall m src b, fits m g -> present g src -> b < num_nodes g -> ~ In b (bnodes g) -> at_boundary g src -> (exists vs es, route g b vs None es) ->
  exists K m' l, (forall fuel, K <= fuel -> get_nodes fuel cyclic_ints 2 m src (Some b) = Ok (m', NodeList (rev l))) /\ fits m' g /\ shortest g b None l.
Proof.
  intros m src b FT Hs Hb Nb Bs HR. destruct (get_search_ok m g FT IDS SC) as (m1 & d & r & k & c & sg & G1 & G2 & _).
  pose proof (proj2 (boundary_is g src (f_flags _ _ FT)) Bs) as Es. destruct (from_node m1 b src 0 G2 Hb Hs Nb) as (K & m2 & l & H1 & H2 & H3); [rewrite Es; discriminate|rewrite Es; exact HR|]. rewrite Es in H3.
  exists K, m2, l. split; [|split; [exact H2|exact H3]]. intros fuel Hf. specialize (H1 fuel Hf). remember 1 as one eqn:E1. cbn [get_nodes]. rewrite G1. cbn [unless_thrown].
  destruct (fits_reads m1 g src G2 Hs) as [B1 B2]. destruct (fits_reads m1 g (Some b) G2 Hb) as [B3 B4]. rewrite B1, B2, B3, B4. cbn [bindO].
  rewrite Es, (proj2 (boundary_no g (Some b) (f_flags _ _ FT)) Nb). cbn [negb]. rewrite H1. cbn [bindO]. destruct src; reflexivity.
Qed.
Lemma both : forall m src dst, fits m g -> present g src -> present g dst -> at_boundary g src -> at_boundary g dst ->
  exists m', (forall fuel, get_nodes fuel cyclic_ints 2 m src dst = Ok (m', NodesRaised)) /\ fits m' g.
Proof.
  intros m src dst FT Hs Hd Bs Bd. destruct (get_search_ok m g FT IDS SC) as (m1 & d & r & k & c & sg & G1 & G2 & _). exists m1. split; [|exact G2]. intros fuel. remember 1 as one. cbn [get_nodes]. rewrite G1. cbn [unless_thrown].
  destruct (fits_reads m1 g src G2 Hs) as [B1 B2]. destruct (fits_reads m1 g dst G2 Hd) as [B3 B4]. rewrite B1, B2, B3, B4. cbn [bindO].
  rewrite (proj2 (boundary_is g src (f_flags _ _ FT)) Bs), (proj2 (boundary_is g dst (f_flags _ _ FT)) Bd). cbn [negb]. destruct src; reflexivity.
Qed.
End Step.

Lemma nodes_step : forall m g c, fits m g -> fair_nodes g c ->
  exists K m' r, (forall fuel, K <= fuel -> nstep fuel cyclic_ints m c = Ok (m', r)) /\ right_nodes g c r /\ fits m' (after_n g c).
Proof.
  intros m g [c|src dst] FT HF; cbn [fair_nodes right_nodes after_n nstep] in *.
  - destruct (step_ok m g c FT HF) as (K & m' & r & A1 & A2 & A3). exists K, m', (Reply r). split; [|split; [exists r; auto|exact A3]]. intros fuel Hf. rewrite A1 by exact Hf. reflexivity.
  - destruct HF as (Ps & Pd & IDS & SC & POS & HA). pose proof (f_flags _ _ FT) as FL.
    destruct (is_boundary_node g src) eqn:Es.
    + pose proof (proj1 (boundary_is g src FL) Es) as Bs. destruct (is_boundary_node g dst) eqn:Ed.
      * pose proof (proj1 (boundary_is g dst FL) Ed) as Bd. destruct (both g IDS SC m src dst FT Ps Pd Bs Bd) as (m' & H1 & H2). exists 0, m', NodesRaised. split; [intros fuel _; apply H1|]. split; [|exact H2]. split; [|reflexivity].
        intros a x t [(_ & -> & N & _)|(_ & -> & N & _)]; contradiction.
      * pose proof (proj1 (boundary_no g dst FL) Ed) as Nd. destruct dst as [b|]; [|elim Nd; exact I]. cbn [at_boundary] in Nd.
        destruct (HA b None true) as [_ HR]; [right; auto|]. destruct (to_node g IDS SC POS m src b FT Ps Pd Nd Bs HR) as (K & m' & l & H1 & H2 & H3). exists K, m', (NodeList (rev l)). split; [exact H1|]. split; [|exact H2]. split; [|intros _ Q; contradiction].
        intros a x t [(_ & -> & N & _)|(-> & E & N & _ & ->)]; [contradiction|]. injection E as <-. exists l. auto.
    + pose proof (proj1 (boundary_no g src FL) Es) as Ns. destruct src as [a|]; [|elim Ns; exact I]. cbn [at_boundary] in Ns.
      assert (HQ : asks_path g (Some a) dst a (if is_boundary_node g dst then None else dst) false).
      { left. repeat split; auto. destruct (is_boundary_node g dst) eqn:Ed; [left; split; [now apply (boundary_is g dst FL)|reflexivity]|right; split; [now apply (boundary_no g dst FL)|reflexivity]]. }
      destruct (HA _ _ _ HQ) as [Nx HR]. destruct (from_node g IDS SC POS m a dst 1 FT Ps Pd Ns Nx HR) as (K & m' & l & H1 & H2 & H3). exists K, m', (NodeList l). split; [exact H1|]. split; [|exact H2]. split; [|intros Q; contradiction].
      intros a' x t [(-> & E & N & Hx)|(_ & _ & _ & Q & _)]; [|contradiction]. injection E as <-. exists l. split; [reflexivity|].
      destruct (is_boundary_node g dst) eqn:Ed; destruct Hx as [[Q ->]|[Q ->]]; [exact H3|apply (boundary_is g dst FL) in Ed; contradiction|apply (boundary_no g dst FL) in Ed; contradiction|exact H3].
Qed.
Lemma nodes_run : forall cs m g, fits m g -> all_fair_n g cs -> exists K m' rs, (forall fuel, K <= fuel -> nrun fuel cyclic_ints m cs = Ok (m', rs)) /\ all_right_n g cs rs /\ fits m' (fold_left after_n cs g).
Proof.
  induction cs as [|c cs IH]; intros m g FT HF; [exists 0, m, []; split; [reflexivity|split; [exact I|exact FT]]|]. destruct HF as [H1 H2].
  destruct (nodes_step m g c FT H1) as (K1 & m1 & r & A1 & A2 & A3). destruct (IH m1 (after_n g c) A3 H2) as (K2 & m2 & rs & B1 & B2 & B3).
  exists (Nat.max K1 K2), m2, (r :: rs). split; [|split; [split; assumption|exact B3]]. intros f Hf. cbn [nrun]. rewrite A1 by lia. cbn [bindO fst snd]. rewrite B1 by lia. reflexivity.
Qed.
Lemma nodes_session : forall n k cs, all_fair_n (new_graph RN n k) cs ->
  exists K m' rs, (forall fuel, K <= fuel -> nrun fuel cyclic_ints (new_matching (new_graph RN n k)) cs = Ok (m', rs)) /\ all_right_n (new_graph RN n k) cs rs.
Proof.
  intros n k cs HF. destruct (nodes_run cs (new_matching (new_graph RN n k)) (new_graph RN n k)) as (K & m' & rs & H1 & H2 & _); [apply new_fits; [apply new_inv|apply flags_new|intros e []]|exact HF|]. exists K, m', rs. auto.
Qed.

(** ** What must not be asked *)
Lemma outside_read : forall m g src dst depth, fits m g -> fault_ids_in_range g -> scalable g -> ~ present g src \/ ~ present g dst -> forall fuel, get_nodes fuel cyclic_ints (S depth) m src dst = UB.
Proof.
  intros m g src dst depth FT IDS SC H fuel. destruct (get_search_ok m g FT IDS SC) as (m1 & d & r & k & c & sg & G1 & G2 & _). cbn [get_nodes]. rewrite G1. cbn [unless_thrown].
  assert (X : forall x, boundary_read (m_graph m1) x = Ok (is_boundary_node g x) \/ boundary_read (m_graph m1) x = UB /\ ~ present g x).
  { destruct (f_graph _ _ G2) as [b ->]. intros [v|]; [|now left]. unfold boundary_read. change (num_nodes (set_needs g b)) with (num_nodes g). destruct (Nat.ltb_spec v (num_nodes g)) as [L|L]; [now left|right; cbn; split; [reflexivity|lia]]. }
  assert (Y : forall x, ~ present g x -> boundary_read (m_graph m1) x = UB).
  { intros x Hx. destruct (X x) as [Q|[Q _]]; [|exact Q]. exfalso. apply Hx. destruct x as [v|]; [|exact I]. cbn. destruct (f_graph _ _ G2) as [b Eb]. rewrite Eb in Q. unfold boundary_read in Q. change (num_nodes (set_needs g b)) with (num_nodes g) in Q.
    destruct (Nat.ltb_spec v (num_nodes g)); [assumption|discriminate]. }
  destruct H as [H|H]; [rewrite (Y src H); reflexivity|]. destruct (X src) as [->|[-> _]]; [|reflexivity]. cbn [bindO]. rewrite (Y dst H). reflexivity.
Qed.
Lemma nrun_app : forall fuel A cs m c m' rs, nrun fuel A m cs = Ok (m', rs) -> nstep fuel A m' c = UB -> nrun fuel A m (cs ++ [c]) = UB.
Proof.
  induction cs as [|c0 cs IH]; intros m c m' rs H1 H2; cbn [nrun app] in *; [injection H1 as <- <-; rewrite H2; reflexivity|].
  destruct (nstep fuel A m c0) as [x| | |]; try discriminate. cbn [bindO] in *. destruct (nrun fuel A (fst x) cs) as [[m1 rs1]| | |] eqn:E; try discriminate. injection H1 as <- <-. rewrite (IH _ c m1 rs1 E H2). reflexivity.
Qed.
Lemma outside : forall n k cs src dst, let g := fold_left after_n cs (new_graph RN n k) in
  all_fair_n (new_graph RN n k) cs -> fault_ids_in_range g -> scalable g -> ~ present g src \/ ~ present g dst ->
  exists K, forall fuel, K <= fuel -> nrun fuel cyclic_ints (new_matching (new_graph RN n k)) (cs ++ [PathNodes src dst]) = UB.
Proof.
  intros n k cs src dst g HF IDS SC H. destruct (nodes_run cs (new_matching (new_graph RN n k)) (new_graph RN n k)) as (K & m' & rs & H1 & _ & H3); [apply new_fits; [apply new_inv|apply flags_new|intros e []]|exact HF|].
  exists K. intros fuel Hf. apply (nrun_app _ _ _ _ _ m' rs (H1 fuel Hf)). exact (outside_read m' g src dst 1 H3 IDS SC H fuel).
Qed.
(** Two nodes and no edge. *)
Lemma bare_search : forall b, match b with Some v => v < 2 | None => True end -> forall fuel, 1 <= fuel -> nrun fuel cyclic_ints (new_matching (new_graph RN 2 0)) [PathNodes (Some 0) b] = UB.
Proof.
  intros b Hb fuel Hf. assert (FT : fits (new_matching (new_graph RN 2 0)) (new_graph RN 2 0)) by (apply new_fits; [apply new_inv|apply flags_new|intros e []]).
  destruct (make_ok _ _ true FT) as (m' & d & k' & c & sg & M1 & M2 & M3 & M4 & M5); [intros e o []|left; intros w []|]. specialize (M5 eq_refl).
  cbn [nrun nstep]. cbn [get_nodes]. unfold get_decoder_with_search. change (needs (m_graph (new_matching (new_graph RN 2 0)))) with true. cbv iota. rewrite M1. cbn [unless_thrown].
  destruct (fits_reads m' _ (Some 0) M2) as [B1 B2]; [cbn; lia|]. destruct (fits_reads m' _ b M2) as [B3 B4]; [destruct b; [cbn; exact Hb|exact I]|]. rewrite B1, B2, B3, B4. cbn [bindO].
  pose proof (do_sg _ _ _ _ (sv_of _ _ _ _ _ M3)) as HS. cbv in HS. injection HS as HS. unfold search_of. rewrite M5, <- HS. clear HS M1 M2 M3 M4 M5 B1 B2 B3 B4 FT. destruct fuel as [|fuel]; [lia|].
  destruct b as [[|[|b]]|]; [vm_compute; reflexivity|vm_compute; reflexivity|lia|vm_compute; reflexivity].
Qed.
