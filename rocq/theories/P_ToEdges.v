(** Decoding through shortest paths: the search graph, the paths of a matching, the list of edges. *)
From Coq Require Import ZArith NArith List Bool Arith Lia Permutation.
From Verif Require Import M_Base M_Core M_Session S_Core S_Session M_Build S_Build S_Decode M_Flip S_Reweight S_Flip M_Search S_Search M_ToEdges S_ToEdges
  P_Build P_Convert P_Convert2 P_Reweight P_Flip P_CoreGeo P_CorePath P_CoreDecode P_Decode P_Signed P_Search P_Search2 P_Search3.
Import ListNotations.
Local Open Scope nat_scope.

(** ** The two graphs have the same shape *)
Definition shape (G G' : graph) : Prop := Forall2 (fun l l' => map fst l = map fst l') G G'.
Lemma shape_length : forall G G', shape G G' -> length G = length G'.
Proof. intros G G' H. induction H; cbn; congruence. Qed.
Lemma shape_nbrs : forall G G', shape G G' -> forall u, map fst (nbrs G u) = map fst (nbrs G' u).
Proof.
  intros G G' H. unfold nbrs. induction H as [|l l' G G' E H IH]; intros u; [destruct u; reflexivity|]. destruct u as [|u]; [exact E|apply IH].
Qed.
Lemma shape_upd : forall G G' u f f', shape G G' -> (forall l l', map fst l = map fst l' -> map fst (f l) = map fst (f' l')) -> shape (upd_node G u f) (upd_node G' u f').
Proof.
  intros G G' u f f' H Hf. unfold upd_node. revert u. induction H as [|l l' G G' E H IH]; intros u.
  - destruct u; constructor.
  - destruct u as [|u]; cbn [firstn skipn app]; [constructor; [now apply Hf|exact H]|]. constructor; [exact E|apply IH].
Qed.
Lemma shape_entry : forall G G' u x w o, shape G G' -> In (x, w, o) (nbrs G u) -> exists o', In (x, w, o') (nbrs G' u).
Proof.
  intros G G' u x w o H Hin. assert (H1 : In (x, w) (map fst (nbrs G u))) by (apply in_map_iff; exists (x, w, o); auto).
  rewrite (shape_nbrs G G' H u) in H1. apply in_map_iff in H1 as ([[x' w'] o'] & E & H1). cbn in E. injection E as -> ->. eauto.
Qed.
Lemma walk_shape : forall G G' a b l o, shape G G' -> walk G a b l o -> exists o', walk G' a b l o'.
Proof.
  intros G G' a b l o H W. induction W as [|v l o x w ob W [o' IH] Hin]; [exists 0%N; constructor|]. destruct (shape_entry _ _ _ _ _ _ H Hin) as [ob' Hin']. eexists. eapply walk_step; eauto.
Qed.
Lemma path_shape : forall G G' a b l o, shape G G' -> path G a b l o -> exists o', path G' a b l o'.
Proof.
  intros G G' a [b|] l o H P; unfold path in *; [eapply walk_shape; eauto|]. destruct P as (v & l' & o' & w & ob & W & Hin & -> & ->).
  destruct (walk_shape _ _ _ _ _ _ H W) as [o1 W1]. destruct (shape_entry _ _ _ _ _ _ H Hin) as [ob1 Hin1]. eexists. exists v, l', o1, w, ob1. eauto.
Qed.
Lemma shape_sym : forall G G', shape G G' -> shape G' G.
Proof. intros G G' H. induction H; constructor; auto. Qed.

(** ** The search graph is built alongside the matching graph *)
Definition neg_pairs (E : list sedge) : list (nat * option nat) := map s_pair (filter (fun e => (s_weight e <? 0)%Z && negb (loop e)) E).
Lemma neg_pairs_app : forall E F, neg_pairs (E ++ F) = neg_pairs E ++ neg_pairs F.
Proof. intros. unfold neg_pairs. now rewrite filter_app, map_app. Qed.
Record alike (E : list sedge) (g g0 : mgraph) (sg : sgraph) : Prop := {
  al_adj : sadj sg = adj g0;
  al_shape : shape (adj g) (adj g0);
  al_neg : sneg sg = neg_pairs E;
  al_mark : Forall (Forall (fun m => N.testbit m 0 = false)) (smark sg) }.
Lemma upd_row_all : forall (P : N -> Prop) M u f, Forall (Forall P) M -> (forall l, Forall P l -> Forall P (f l)) -> Forall (Forall P) (upd_row M u f).
Proof.
  intros P M u f H Hf. unfold upd_row. revert u. induction H as [|l M Hl H IH]; intros u; [destruct u; constructor|]. destruct u as [|u]; cbn [firstn skipn app]; constructor; auto.
Qed.
Lemma sign_unmarked : forall w, N.testbit (sign_mark w) 0 = false.
Proof. intros w. unfold sign_mark. now destruct (w <? 0)%Z. Qed.
Lemma first_none : forall (l l' : list nbr), map fst l = map fst l' -> (match l with (None, _, _) :: _ => true | _ => false end) = (match l' with (None, _, _) :: _ => true | _ => false end).
Proof. intros [|[[[x|] w] o] l] [|[[[x'|] w'] o'] l'] H; cbn in *; try discriminate; auto. Qed.
Lemma add_alike : forall nobs E g g0 sg e g', alike E g g0 sg -> add_any nobs g e = Ok g' ->
  exists g0' sg', add_any 0 g0 e = Ok g0' /\ sadd_any sg e = Ok sg' /\ alike (E ++ [e]) g' g0' sg'.
Proof.
  intros nobs E g g0 sg [[[u x] w] obs] g' [A1 A2 A3 A4] H. pose proof (shape_length _ _ A2) as HL. destruct x as [v|].
  - cbn [add_any] in *. unfold add_edge in *. cbn [sadd_any]. unfold sadd_edge. rewrite A1. rewrite <- !HL. destruct (length (adj g) <=? Nat.max u v); [discriminate|].
    assert (N1 : forall a, adj (note_negative a [u; v] w obs) = adj a) by (intros a; unfold note_negative; now destruct (w <? 0)%Z).
    assert (N2 : note_neg_edge (sneg sg) w (u, Some v) = sneg sg ++ if (w <? 0)%Z then [(u, Some v)] else []) by (unfold note_neg_edge; destruct (w <? 0)%Z; [reflexivity|now rewrite app_nil_r]).
    destruct (u =? v) eqn:Euv.
    + injection H as <-. exists (note_negative g0 [u; v] w obs), sg. split; [reflexivity|]. split; [reflexivity|]. constructor; rewrite ?N1; auto.
      rewrite neg_pairs_app, A3. unfold neg_pairs at 3. cbn [filter loop]. rewrite Euv. cbn [negb]. rewrite andb_false_r. cbn [map]. now rewrite app_nil_r.
    + injection H as <-. eexists. eexists. split; [reflexivity|]. split; [reflexivity|]. constructor; cbn [sadj adj sneg smark].
      * rewrite N1. reflexivity.
      * rewrite !N1. apply shape_upd; [apply shape_upd; [exact A2|]|]; intros l l' Hl; cbn beta; rewrite !map_app; f_equal; exact Hl.
      * rewrite N2, A3, neg_pairs_app. f_equal. unfold neg_pairs. cbn [filter loop s_weight]. rewrite Euv. cbn [negb]. rewrite andb_true_r. now destruct (w <? 0)%Z.
      * apply upd_row_all; [apply upd_row_all; [exact A4|]|]; intros l Hl; apply Forall_app; split; auto; repeat constructor; apply sign_unmarked.
  - cbn [add_any] in *. unfold add_boundary_edge in *. cbn [sadd_any]. unfold sadd_boundary_edge. rewrite A1. rewrite <- !HL. destruct (length (adj g) <=? u); [discriminate|].
    assert (N1 : forall a, adj (note_negative a [u] w obs) = adj a) by (intros a; unfold note_negative; now destruct (w <? 0)%Z).
    rewrite N1 in H. pose proof (first_none _ _ (shape_nbrs _ _ A2 u)) as FN. unfold nbrs in FN. rewrite N1.
    assert (Hnn : match nth u (adj g) [] with (None, _, _) :: _ => true | _ => false end = false) by (destruct (nth u (adj g) []) as [|[[[y|] w'] o'] l']; [reflexivity|reflexivity|discriminate]).
    rewrite Hnn in FN.
    assert (G' : g' = mkG (upd_node (adj g) u (fun l => (None, Z.abs w, mask_of nobs obs) :: l)) (neg_dets (note_negative g [u] w obs)) (neg_obss (note_negative g [u] w obs)) (neg_total (note_negative g [u] w obs))).
    { destruct (nth u (adj g) []) as [|[[[y|] w'] o'] l']; [congruence|congruence|discriminate]. }
    exists (mkG (upd_node (adj g0) u (fun l => (None, Z.abs w, mask_of 0 obs) :: l)) (neg_dets (note_negative g0 [u] w obs)) (neg_obss (note_negative g0 [u] w obs)) (neg_total (note_negative g0 [u] w obs))).
    eexists. split; [destruct (nth u (adj g0) []) as [|[[[y|] w'] o'] l']; [reflexivity|reflexivity|discriminate]|]. split; [reflexivity|]. subst g'. constructor; cbn [sadj adj sneg smark].
    + reflexivity.
    + apply shape_upd; [exact A2|]. intros l l' Hl. cbn [map]. f_equal; exact Hl.
    + rewrite A3, neg_pairs_app. unfold note_neg_edge. destruct (w <? 0)%Z eqn:Ew; unfold neg_pairs; cbn [filter loop s_weight negb]; rewrite Ew; cbn [andb map s_pair]; [reflexivity|now rewrite app_nil_r].
    + apply upd_row_all; [exact A4|]. intros l Hl. constructor; [apply sign_unmarked|exact Hl].
Qed.
Lemma sbuild_alike : forall nobs n E g, build nobs n E = Ok g -> exists g0 sg, build 0 n E = Ok g0 /\ sbuild n E = Ok sg /\ alike E g g0 sg.
Proof.
  intros nobs n E g. unfold build, sbuild.
  assert (X : forall E2 E1 g1 g01 sg1, alike E1 g1 g01 sg1 -> fold_left (fun o e => bindO o (fun g => add_any nobs g e)) E2 (Ok g1) = Ok g ->
     exists g0 sg, fold_left (fun o e => bindO o (fun g => add_any 0 g e)) E2 (Ok g01) = Ok g0 /\ fold_left (fun o e => bindO o (fun g => sadd_any g e)) E2 (Ok sg1) = Ok sg /\ alike (E1 ++ E2) g g0 sg).
  { induction E2 as [|e E2 IH]; intros E1 g1 g01 sg1 HA H; cbn [fold_left] in *.
    - injection H as ->. exists g01, sg1. rewrite app_nil_r. auto.
    - cbn [bindO] in *. destruct (add_any nobs g1 e) as [g2| | |] eqn:E0; try (exfalso; eapply fold_bind_fail; [|exact H]; discriminate).
      destruct (add_alike nobs E1 g1 g01 sg1 e g2 HA E0) as (g02 & sg2 & H1 & H2 & H3). rewrite H1, H2. destruct (IH (E1 ++ [e]) g2 g02 sg2 H3 H) as (g0 & sg & H4 & H5 & H6).
      exists g0, sg. rewrite <- app_assoc in H6. auto. }
  intros H. destruct (X E [] (empty_graph n) (empty_graph n) (mkSG (repeat [] n) (repeat [] n) [])) as (g0 & sg & H1 & H2 & H3); [|exact H|exists g0, sg; auto].
  constructor; auto; [|cbn [smark]; apply Forall_forall; intros l Hl; apply repeat_spec in Hl; subst l; constructor].
  cbn [adj empty_graph]. clear. induction n as [|n IH]; cbn [repeat]; constructor; auto.
Qed.
Lemma alike_unmarked : forall E g g0 sg, alike E g g0 sg -> unmarked (sadj sg) (marks_of sg).
Proof.
  intros E g g0 sg [_ _ _ A4] u i _. unfold marks_of. destruct (nth_in_or_default u (smark sg) []) as [H|H]; [|rewrite H; destruct i; reflexivity].
  rewrite Forall_forall in A4. specialize (A4 _ H). destruct (nth_in_or_default i (nth u (smark sg) []) 0%N) as [H'|H']; [|rewrite H'; reflexivity]. rewrite Forall_forall in A4. now apply A4.
Qed.

(** ** The paths of a matching *)
Section Paths.
Variables (SG : graph) (orc2 : nat -> nat).
Hypothesis WS : wf_graph SG.
Context {NI : ints} {WNI : wfine NI SG}.

Lemma edge_at_is_edge : forall c, is_cell SG c -> is_edge SG (edge_at SG c).
Proof.
  intros [u i] H. unfold is_cell in H. cbn [fst snd] in H. cbn [edge_at]. destruct (nth_error (nbrs SG u) i) as [[[[v|] w] o]|] eqn:E; [| |congruence]; apply nth_error_In in E.
  - destruct (Nat.ltb_spec u v); split; auto; [now apply (wf_sym SG WS)|]. destruct (Nat.eq_dec u v) as [->|]; [elim (wf_noloop SG WS _ _ _ E)|lia].
  - split; auto.
Qed.
Lemma leads_degree : forall p a b, leads SG a p b -> forall z, Nat.odd (degree z (edges_at SG p)) = xorb (a =? z) (match b with Some d => d =? z | None => false end).
Proof.
  induction p as [|[y i] p IH]; intros a b H z; cbn [leads] in H.
  - subst b. cbn. now destruct (a =? z).
  - destruct H as [-> H]. destruct (nth_error (nbrs SG a) i) as [[[[v|] w] o]|] eqn:E; [| |destruct H].
    + cbn [edges_at map degree]. rewrite Nat.odd_add. fold (edges_at SG p). rewrite (IH v b H z).
      assert (X : ends_at z (edge_at SG (a, i)) = (if a =? z then 1 else 0) + (if v =? z then 1 else 0)) by (cbn [edge_at]; rewrite E; destruct (a <? v); cbn [ends_at]; lia).
      rewrite X, Nat.odd_add. destruct (a =? z), (v =? z), (match b with Some d => d =? z | None => false end); reflexivity.
    + destruct H as [-> ->]. cbn [edges_at map degree edge_at]. rewrite E. cbn [ends_at]. now destruct (a =? z).
Qed.
Fixpoint run_paths (fuel2 : nat) (A : ints) (l : list cedge) (q : search) : outcome (search * list (nat * nat)) :=
  match l with
  | [] => Ok (q, [])
  | e :: rest => bindO (deref (efrom e)) (fun a => bindO (path_from_middle SG fuel2 orc2 A q a (eto e)) (fun r => bindO (run_paths fuel2 A rest (fst r)) (fun x => Ok (fst x, snd r ++ snd x))))
  end.
Variable G : graph.
Hypothesis SH : shape G SG.
Lemma run_paths_spec : forall l ws, Forall2 (stands_for_shortest G) l ws -> NoDup (flat_map pair_ends l) -> (forall v, In v (flat_map pair_ends l) -> v < length SG) ->
  forall q, search_idle q -> exists k q' cells, (forall fuel2, k <= fuel2 -> run_paths fuel2 NI l q = Ok (q', cells)) /\ search_idle q' /\
    Forall (is_cell SG) cells /\ weight_of (edges_at SG cells) = fold_right Z.add 0%Z ws /\
    forall z, Nat.odd (degree z (edges_at SG cells)) = Nat.odd (count_occ Nat.eq_dec (flat_map pair_ends l) z).
Proof.
  intros l ws H. induction H as [|e w l ws He H IH]; intros ND RG q Hq.
  - exists 0, q, []. split; [reflexivity|]. split; [exact Hq|]. split; [constructor|]. split; reflexivity.
  - cbn [flat_map] in ND, RG. destruct He as (a & Ea & Hp & Hm).
    assert (ND' : NoDup (flat_map pair_ends l)) by (clear -ND; induction (pair_ends e) as [|x p IHp]; [exact ND|inversion ND; auto]).
    assert (PE : pair_ends e = match eto e with Some d => [a; d] | None => [a] end) by (unfold pair_ends; rewrite Ea; now destruct (eto e)).
    assert (VQ : valid_query SG a (eto e)).
    { rewrite PE in ND, RG. split; [apply RG, in_or_app; left; destruct (eto e); now left|]. destruct (eto e) as [d|]; [|exact Logic.I]. split; [apply RG; cbn; auto|]. intros ->. inversion ND as [|? ? N1 _]. apply N1. now left. }
    destruct (path_shape _ _ _ _ _ _ SH Hp) as [o' Hp'].
    destruct (query_spec SG WS orc2 NI WNI a (eto e) VQ q Hq) as (k1 & q1 & c1 & p & R1 & I1 & L1 & C1 & P1 & M1); [exists w, o'; exact Hp'|].
    destruct (IH ND' (fun v Hv => RG v (in_or_app _ _ _ (or_intror Hv))) q1 I1) as (k2 & q2 & c2 & R2 & I2 & C2 & W2 & D2).
    assert (W1 : weight_of (edges_at SG c1) = w).
    { apply Z.le_antisymm; [exact (M1 _ _ Hp')|]. pose proof (leads_path SG p a (eto e) L1) as LP. rewrite (weight_perm _ _ P1).
      destruct (path_shape _ _ _ _ _ _ (shape_sym _ _ SH) LP) as [o2 LP']. exact (Hm _ _ LP'). }
    exists (Nat.max k1 k2), q2, (c1 ++ c2). split; [|split; [exact I2|split; [|split]]].
    + intros fuel2 Hf. cbn [run_paths]. rewrite Ea. cbn [deref bindO]. destruct (R1 fuel2) as [R1' _]; [lia|]. rewrite R1'. cbn [bindO fst snd]. rewrite R2 by lia. reflexivity.
    + apply Forall_app. auto.
    + unfold edges_at in *. rewrite map_app, weight_app, W1, W2. reflexivity.
    + intros z. unfold edges_at in *. rewrite map_app, degree_app, Nat.odd_add, D2, (degree_perm z _ _ P1). fold (edges_at SG p). rewrite (leads_degree p a (eto e) L1 z).
      cbn [flat_map]. rewrite count_occ_app, Nat.odd_add, PE. f_equal. clear -Ea. destruct (eto e) as [d|]; cbn [count_occ];
      repeat (match goal with |- context [Nat.eq_dec ?x ?y] => destruct (Nat.eq_dec x y) | |- context [?x =? ?y] => destruct (Nat.eqb_spec x y) end; try congruence; try reflexivity).
Qed.
Lemma collect_paths_run : forall fuel2 A l q q' cells, run_paths fuel2 A l q = Ok (q', cells) ->
  forall M edges, Forall (is_cell SG) cells -> collect_paths SG fuel2 orc2 A l q M edges = bindO (collect SG M cells edges) (fun st => Ok (q', fst st, snd st)).
Proof.
  assert (CA : forall p1 p2 M edges, collect SG M (p1 ++ p2) edges = bindO (collect SG M p1 edges) (fun st => collect SG (fst st) p2 (snd st))).
  { induction p1 as [|[u i] p1 IH]; intros p2 M edges; [reflexivity|]. cbn [collect app]. destruct (flip_edge SG M u i) as [M'| | |]; cbn [bindO]; auto. destruct (nth_error (nbrs SG u) i) as [[[x w] o]|]; auto. }
  intros fuel2 A. induction l as [|e l IH]; intros q q' cells H M edges HC; cbn [run_paths collect_paths] in *; [injection H as <- <-; reflexivity|].
  destruct (deref (efrom e)) as [a| | |]; cbn [bindO] in *; try discriminate. destruct (path_from_middle SG fuel2 orc2 A q a (eto e)) as [[q1 c1]| | |]; cbn [bindO fst snd] in *; try discriminate.
  destruct (run_paths fuel2 A l q1) as [[q2 c2]| | |] eqn:E2; cbn [bindO fst snd] in *; try discriminate. injection H as <- <-. apply Forall_app in HC as [_ HC]. rewrite CA.
  destruct (collect SG M c1 edges) as [st| | |]; cbn [bindO]; auto.
Qed.
Lemma extract_paths_run : forall fuel2 A l q q' cells, run_paths fuel2 A l q = Ok (q', cells) -> Forall (is_cell SG) cells ->
  forall o w, extract_paths SG fuel2 orc2 A l q (o, w) = Ok (q', (N.lxor o (obs_of (edges_at SG cells)), (w + weight_of (edges_at SG cells))%Z)).
Proof.
  assert (CA : forall p o w, Forall (is_cell SG) p -> fold_left (fun x c => bindO x (fun y => add_cell SG y c)) p (Ok (o, w)) = Ok (N.lxor o (obs_of (edges_at SG p)), (w + weight_of (edges_at SG p))%Z)).
  { induction p as [|[u i] p IH]; intros o w HC; [cbn; now rewrite N.lxor_0_r, Z.add_0_r|]. inversion HC as [|? ? H1 H2]; subst. unfold is_cell in H1. cbn [fst snd] in H1.
    cbn [fold_left bindO]. unfold add_cell at 2. cbn [fst snd]. cbn [edges_at map edge_at]. destruct (nth_error (nbrs SG u) i) as [[[x w'] o']|]; [|congruence]. rewrite IH by exact H2.
    destruct x as [v|]; [destruct (u <? v)|]; cbn [obs_of weight_of]; rewrite N.lxor_assoc, Z.add_assoc; reflexivity. }
  intros fuel2 A. induction l as [|e l IH]; intros q q' cells H HC o w; cbn [run_paths extract_paths] in *; [injection H as <- <-; cbn; now rewrite N.lxor_0_r, Z.add_0_r|].
  destruct (deref (efrom e)) as [a| | |]; cbn [bindO] in *; try discriminate. destruct (path_from_middle SG fuel2 orc2 A q a (eto e)) as [[q1 c1]| | |]; cbn [bindO fst snd] in *; try discriminate.
  destruct (run_paths fuel2 A l q1) as [[q2 c2]| | |] eqn:E2; cbn [bindO fst snd] in *; try discriminate. injection H as <- <-. apply Forall_app in HC as [HC1 HC2]. rewrite CA by exact HC1. cbn [bindO].
  rewrite (IH q1 q2 c2 E2 HC2). unfold edges_at. rewrite map_app, obs_app, weight_app, N.lxor_assoc, Z.add_assoc. reflexivity.
Qed.
Lemma collect_negative_run : forall ne M edges, Forall (fun p => exists w o, In (snd p, w, o) (nbrs SG (fst p))) ne ->
  exists cells, Forall2 (cell_entry SG) cells ne /\ collect_negative SG M ne edges = collect SG M cells edges.
Proof.
  induction ne as [|[u x] ne IH]; intros M edges H; [exists []; split; [constructor|reflexivity]|]. inversion H as [|? ? (w & o & Hin) H']; subst. cbn [fst snd] in Hin.
  destruct (index_of_found (nbrs SG u) x w o 0 Hin) as [i Hi]. destruct (index_of_neighbor_spec SG u x i Hi) as (w1 & o1 & Hn).
  assert (Hu : u < length SG) by (destruct (Nat.lt_ge_cases u (length SG)); [assumption|]; unfold nbrs in Hin; rewrite nth_overflow in Hin by lia; destruct Hin).
  assert (Hx : match x with None => true | Some v => in_nodes SG v end = true).
  { destruct x as [v|]; [|reflexivity]. apply (wf_sym SG WS) in Hin. apply Nat.ltb_lt. destruct (Nat.lt_ge_cases v (length SG)); [assumption|]; unfold nbrs in Hin; rewrite nth_overflow in Hin by lia; destruct Hin. }
  cbn [collect_negative]. unfold in_nodes at 1. rewrite (proj2 (Nat.ltb_lt _ _) Hu), Hx. cbn [andb]. unfold index_of_neighbor. rewrite Hi. cbn [bindO].
  assert (AI : at_index SG u x i) by (exists w1, o1; exact Hn).
  destruct (flip_edge SG M u i) as [M'| | |] eqn:EF.
  - destruct (IH M' (edges ++ [(u, x)]) H') as (cells & F & EC). exists ((u, i) :: cells). split; [constructor; [split; [reflexivity|exact AI]|exact F]|]. cbn [collect bindO]. rewrite EF. cbn [bindO]. rewrite Hn. exact EC.
  - destruct (IH M (edges ++ [(u, x)]) H') as (cells & F & _). exists ((u, i) :: cells). split; [constructor; [split; [reflexivity|exact AI]|exact F]|]. cbn [collect]. now rewrite EF.
  - destruct (IH M (edges ++ [(u, x)]) H') as (cells & F & _). exists ((u, i) :: cells). split; [constructor; [split; [reflexivity|exact AI]|exact F]|]. cbn [collect]. now rewrite EF.
  - destruct (IH M (edges ++ [(u, x)]) H') as (cells & F & _). exists ((u, i) :: cells). split; [constructor; [split; [reflexivity|exact AI]|exact F]|]. cbn [collect]. now rewrite EF.
Qed.
End Paths.
