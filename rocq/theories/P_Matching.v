(** Calls on a Matching object, in any order. *)
From Coq Require Import Reals ZArith NArith List Bool Arith Lia Sorted.
From Verif Require Import M_Base M_Core M_CoreHeap M_Failing M_Session S_Core S_Session S_CoreHeap M_Build S_Build P_Build P_Convert P_Convert2 P_UserCorr
  M_Flip S_Flip M_Search S_Search M_ToEdges S_ToEdges P_ToEdges P_ToEdges2 M_SearchHeap S_SearchHeap
  M_Discretise M_Merge P_Merge M_Pipeline M_PipelineHeap M_Bits S_Bits P_Bits M_UserGraph S_UserGraph P_UserGraph S_Pipeline S_PipelineHeap P_Pipeline P_Pipeline2 P_PipelineHeap M_Matching S_Matching P_Matched.
Import ListNotations.
Local Open Scope nat_scope.

(** ** Graphs that differ in the number of observables or in the mark that the decoder has to be made again *)
Definition set_needs (g : ugraph RN) (b : bool) : ugraph RN := mkG (nodes g) (edges g) (bnodes g) (nobs g) (allp g) b.
Definition at_nobs (g : ugraph RN) (k : nat) : ugraph RN := mkG (nodes g) (edges g) (bnodes g) k (allp g) (needs g).
Lemma set_same : forall g, exists b, g = set_needs g b.
Proof. intros [a b c d e f]. exists f. reflexivity. Qed.
Lemma set_set : forall g b b', set_needs (set_needs g b) b' = set_needs g b'. Proof. reflexivity. Qed.
Lemma merge_set : forall g b i o w p s, exists b', merge_edge (set_needs g b) i o w p s = (set_needs (fst (merge_edge g i o w p s)) b', snd (merge_edge g i o w p s)).
Proof.
  intros g b i o w p s. unfold merge_edge, set_needs. cbn [nodes edges bnodes nobs allp needs]. destruct (nth_error (edges g) i) as [e|]; [|eexists; reflexivity].
  destruct s; try (eexists; reflexivity). destruct (w_ge RN w (weight e)); eexists; reflexivity.
Qed.
Lemma add_set : forall g b u v o w p s, exists b', py_add (set_needs g b) u v o w p s = (set_needs (fst (py_add g u v o w p s)) b', snd (py_add g u v o w p s)).
Proof.
  intros g b u v o w p s. unfold py_add. destruct (w_exceeds RN w); [eexists; reflexivity|]. unfold add_or_merge. cbn [nodes edges bnodes nobs allp needs set_needs].
  set (ns := resize (nodes g) _). destruct (index_of_neighbor (edges g) (nbrs (node_at ns u)) v) as [idx|]; [|eexists; reflexivity].
  exact (merge_set (mkG ns (edges g) (bnodes g) (nobs g) (allp g) (needs g)) b _ o w p s).
Qed.
Lemma op_set : forall g b x, exists b', apply_op (set_needs g b) x = set_needs (apply_op g x) b'.
Proof.
  intros g b [u v o w p s|l|n]; cbn [apply_op]; [|eexists; reflexivity|eexists; reflexivity].
  destruct (add_set g b u v o w p s) as [b' ->]. eexists. reflexivity.
Qed.
Lemma raises_set : forall g b x, raises (set_needs g b) x = raises g x.
Proof. intros g b [u v o w p s|l|n]; [|reflexivity|reflexivity]. cbn [raises]. destruct (add_set g b u v o w p s) as [b' ->]. reflexivity. Qed.
Lemma raises_spec : forall g x, Inv g -> (refused g x -> raises g x = true) /\ (~ refused g x -> raises g x = false).
Proof.
  intros g x HI. destruct x as [u v o w p s|l|n]; [|split; [intros []|reflexivity]|split; [intros []|reflexivity]].
  cbn [refused raises]. unfold py_add. destruct (w_exceeds RN w); [split; [intros (_ & H & _); discriminate|reflexivity]|].
  destruct (find_edge (edges g) u v) as [(i & e & Hi & HJ)|Hno].
  - rewrite (add_or_merge_old g u v o w p s i e HI Hi HJ). unfold merge_edge. rewrite Hi. split.
    + intros (-> & _). reflexivity.
    + intros H. destruct s; try reflexivity; [|destruct (w_ge RN w (weight e)); reflexivity]. elim H. split; [reflexivity|]. split; [reflexivity|]. exists e. split; [exact (nth_error_In _ _ Hi)|exact HJ].
  - destruct (add_or_merge_new g u v o w p s HI Hno) as (g' & E & _). rewrite E. split; [|reflexivity]. intros (_ & _ & e & He & HJ). elim (Hno e He HJ).
Qed.
Lemma decoder_same : forall g g' d c sg, nodes g = nodes g' -> edges g = edges g' -> bnodes g = bnodes g' -> nobs g = nobs g' -> decoder_of g d c sg -> decoder_of g' d c sg.
Proof. intros [a b c e f h] [a' b' c' e' f' h'] d k sg E1 E2 E3 E4. cbn in *. subst. intros []. constructor; assumption. Qed.

(** ** Rows of observables *)
Lemma xor_zero : forall o n, length o <= n -> xor_bits o (repeat 0%Z n) = Ok (map Z.b2z o ++ repeat 0%Z (n - length o)).
Proof.
  induction o as [|b o IH]; intros n L; [cbn; now rewrite Nat.sub_0_r|]. destruct n as [|n]; [cbn in L; lia|]. cbn [repeat xor_bits length map app Nat.sub]. rewrite IH by (cbn in L; lia). destruct b; reflexivity.
Qed.
Lemma flips_none : forall i F, (forall e, In e F -> ~ In i (obs e)) -> flips_observable i F = false.
Proof.
  intros i F H. induction F as [|e F IH]; [reflexivity|]. cbn [flips_observable fold_right]. fold (flips_observable i F). rewrite IH by (intros e' He; apply H; now right).
  rewrite (proj1 (count_occ_not_In Nat.eq_dec (obs e) i)) by (apply H; now left). reflexivity.
Qed.
Lemma row_padded : forall g k F, k <= nobs g -> fault_ids_in_range (at_nobs g k) -> incl F (edges g) ->
  xor_bits (map (fun i => flips_observable i F) (seq 0 k)) (repeat 0%Z (nobs g)) = Ok (map (fun i => Z.b2z (flips_observable i F)) (seq 0 (nobs g))).
Proof.
  intros g k F L IDS HF. rewrite xor_zero by (now rewrite map_length, seq_length). rewrite map_length, seq_length, map_map. f_equal.
  replace (nobs g) with (k + (nobs g - k)) at 2 by lia. rewrite seq_app, map_app. f_equal. cbn [plus].
  assert (Z : forall i, k <= i -> flips_observable i F = false).
  { intros i Hi. apply flips_none. intros e He Ho. pose proof (IDS e i (HF e He) Ho) as X. cbn in X. lia. }
  assert (Y : forall j a, k <= a -> repeat 0%Z j = map (fun i => Z.b2z (flips_observable i F)) (seq a j)).
  { induction j as [|j IH]; intros a Ha; [reflexivity|]. cbn [repeat seq map]. rewrite (Z a Ha). cbn [Z.b2z]. f_equal. apply IH. lia. }
  now apply Y.
Qed.

(** ** Events *)
Lemma sorted_NoDup : forall l, StronglySorted lt l -> NoDup l.
Proof. intros l H. induction H as [|a l H IH HF]; constructor; [|assumption]. intros Hi. rewrite Forall_forall in HF. specialize (HF a Hi). lia. Qed.
Lemma events_in_ok : forall g z, accepted g z -> exists evs, events_in g z = Ok evs /\ NoDup evs /\ forall v, In v evs <-> event_at z v.
Proof.
  intros g z H. unfold events_in. destruct z as [l|nc rows|]; cbn [accepted] in H; [| |destruct H].
  - destruct (syn1_ok _ _ l H) as (ev & E & S & I). exists ev. split; [exact E|]. split; [now apply sorted_NoDup|exact I].
  - destruct (syn2_ok _ (length (bnodes g)) nc rows H) as (ev & E & S & I). exists ev. split; [exact E|]. split; [now apply sorted_NoDup|exact I].
Qed.
Lemma events_in_no : forall g z, ~ accepted g z -> events_in g z = Throw.
Proof. intros g z H. destruct z as [l|nc rows|]; cbn [accepted] in H; [now apply syn_reject1|now apply syn_reject2|reflexivity]. Qed.
Lemma shot_events_ok : forall (ps : bool) shot, let evs := if ps then packed_events 0 shot else nonzero_positions 0 shot in NoDup evs /\ forall v, In v evs <-> shot_event ps shot v.
Proof.
  intros [|] shot; cbn [shot_event]; [destruct (packed_lists shot) as [S I]|destruct (unpacked_lists shot) as [S I]]; (split; [now apply sorted_NoDup|exact I]).
Qed.
Lemma batch_ok_iff : forall g ps nc shots, accepted_batch g ps (Syn2 nc shots) <-> batch_shape_ok g ps nc = true.
Proof. intros g [|] nc shots; cbn [accepted_batch]; unfold batch_shape_ok; rewrite andb_true_iff, !Nat.leb_le; reflexivity. Qed.
Lemma odd_touches : forall v F, Nat.odd (total_degree v F) = true -> exists e, In e F /\ edge_ends v e <> 0.
Proof.
  intros v F. induction F as [|e F IH]; intros H; [discriminate|]. cbn [total_degree fold_right] in H. fold (total_degree v F) in H.
  destruct (Nat.eq_dec (edge_ends v e) 0) as [E|E]; [|exists e; split; [now left|exact E]]. rewrite E in H. destruct (IH H) as (e' & H1 & H2). exists e'. split; [now right|exact H2].
Qed.
Lemma explained_range : forall (g : ugraph RN) F evs, Inv g -> flags_ok RN g -> corrects g F evs -> forall v, In v evs -> v < num_nodes g.
Proof.
  intros g F evs (_ & HN & _) FL (_ & HI & HC) v Hv. destruct (in_dec Nat.eq_dec v (bnodes g)) as [Hb|Hb]; [exact (proj2 FL v Hb)|].
  apply (HC v Hb) in Hv. destruct (odd_touches v F Hv) as (e & He & Hn). destruct (HN e (HI e He)) as [N1 N2]. unfold edge_ends in Hn. unfold num_nodes.
  destruct (Nat.eqb_spec (node1 e) v) as [<-|]; [exact N1|]. destruct (node2 e) as [x|]; [|contradiction]. destruct (Nat.eqb_spec x v) as [<-|]; [now apply N2|contradiction].
Qed.
Lemma corrects_iff : forall (g : ugraph RN) F l l', (forall v, In v l <-> In v l') -> corrects g F l -> corrects g F l'.
Proof. intros g F l l' H (A & B & C). split; [exact A|]. split; [exact B|]. intros v Hv. rewrite (C v Hv). apply H. Qed.

(** ** The dictionary of pairs *)
Lemma get_set : forall t k x v, dict_get (dict_set t k x) v = if k =? v then Some x else dict_get t v.
Proof.
  intros t k x v. unfold dict_get, dict_set. cbn [find fst snd]. destruct (Nat.eqb_spec k v) as [->|N]; [reflexivity|]. f_equal. induction t as [|[a y] t IH]; [reflexivity|]. cbn [filter find fst].
  destruct (Nat.eqb_spec a k) as [->|]; cbn [negb find fst]; [|rewrite IH; reflexivity]. rewrite IH. destruct (Nat.eqb_spec k v); [contradiction|reflexivity].
Qed.
Lemma sets_spec : forall l t, NoDup (map fst l) -> (forall k, In k (map fst l) -> dict_get t k = None) ->
  forall v x, dict_get (fold_left (fun t p => dict_set t (fst p) (snd p)) l t) v = Some x <-> In (v, x) l \/ dict_get t v = Some x.
Proof.
  induction l as [|[k y] l IH]; intros t ND HT v x; [cbn; tauto|]. cbn [fold_left fst snd map] in *. inversion ND as [|? ? N1 N2]; subst.
  rewrite IH; [|assumption|].
  - rewrite get_set. cbn [In]. destruct (Nat.eqb_spec k v) as [->|N].
    + rewrite (HT v (or_introl eq_refl)). split; [intros [H|H]; [tauto|injection H as ->; tauto]|]. intros [[H|H]|H]; [injection H as ->; tauto|tauto|discriminate].
    + split; [tauto|]. intros [[H|H]|H]; [injection H as -> _; contradiction|tauto|tauto].
  - intros k' Hk. rewrite get_set. destruct (Nat.eqb_spec k k') as [->|]; [contradiction|]. apply HT. now right.
Qed.
Definition entries (p : nat * option nat) : list (nat * option nat) := match snd p with Some b => [(fst p, Some b); (b, Some (fst p))] | None => [(fst p, None)] end.
Lemma dict_of_entries : forall l t, fold_left (fun t p => match snd p with Some b => dict_set (dict_set t (fst p) (Some b)) b (Some (fst p)) | None => dict_set t (fst p) None end) l t
  = fold_left (fun t p => dict_set t (fst p) (snd p)) (flat_map entries l) t.
Proof. induction l as [|[a [b|]] l IH]; intros t; [reflexivity| |]; cbn [fold_left flat_map entries fst snd app]; apply IH. Qed.
Lemma entries_keys : forall l, map fst (flat_map entries l) = flat_map ends_of l.
Proof. induction l as [|[a [b|]] l IH]; [reflexivity| |]; cbn [flat_map map entries ends_of fst snd app]; now rewrite IH. Qed.
Lemma dict_of_spec : forall l, NoDup (flat_map ends_of l) -> forall v x, dict_get (dict_of l) v = Some x <-> In (v, x) l \/ exists u, x = Some u /\ In (u, Some v) l.
Proof.
  intros l H v x. unfold dict_of. rewrite dict_of_entries, sets_spec; [|now rewrite entries_keys|reflexivity]. rewrite in_flat_map. split.
  - intros [([a [b|]] & Hp & He)|H']; [| |discriminate]; cbn [entries fst snd In] in He.
    + destruct He as [He|[He|[]]]; injection He as <- <-; [now left|]. right. exists a. auto.
    + destruct He as [He|[]]. injection He as <- <-. now left.
  - intros [Hi|(u & -> & Hi)]; left.
    + exists (v, x). split; [exact Hi|]. destruct x as [b|]; cbn; auto.
    + exists (u, Some v). split; [exact Hi|]. cbn. auto.
Qed.

(** ** The object *)
Record serves (g : ugraph RN) (d : decoder) (k : nat) (c : R) (sg : sgraph) : Prop := {
  sv_le : k <= nobs g;
  sv_ids : fault_ids_in_range (at_nobs g k);
  sv_of : decoder_of (at_nobs g k) d c sg }.
Record fits (m : matching) (g : ugraph RN) : Prop := {
  f_graph : exists b, m_graph m = set_needs g b;
  f_inv : Inv g;
  f_flags : flags_ok RN g;
  f_weights : forall e, In e (edges g) -> w_exceeds RN (weight e) = false;
  f_dec : needs (m_graph m) = false -> forall d r, m_mwpm m = Some (d, r) -> ready d r /\ exists k c sg, serves g d k c sg }.

Lemma fits_keep : forall m g d r, fits m g -> (exists k c sg, serves g d k c sg) -> ready d r -> fits (keep m d r) g.
Proof.
  intros m g d r [H1 H2 H3 H4 H5] HS HR. constructor; auto. cbn [keep m_graph m_mwpm]. intros _ d' r' E. injection E as <- <-. split; assumption.
Qed.
Lemma make_ok : forall m g ens, fits m g -> fault_ids_in_range g -> scalable g ->
  exists m' d k c sg, make (m_graph m) ens = Ok (m', d, run_init d) /\ fits m' g /\ serves g d k c sg /\ ready d (run_init d) /\ (ens = true -> d_search d = Some sg).
Proof.
  intros m g ens [[b Eg] H2 H3 H4 H5] IDS SC. rewrite Eg.
  destruct (decoder_built (set_needs g b) H2 H4 IDS SC ens) as (d & c & sg & E & DO & SS). unfold make. rewrite E. cbn [bindO].
  assert (SV : serves g d (nobs g) c sg).
  { split; [reflexivity|exact IDS|]. apply (decoder_same (set_needs g b)); try reflexivity. exact DO. }
  assert (RD := graph_ready _ _ _ _ DO).
  exists (mkMatching (clear_needs (set_needs g b)) (Some (d, run_init d))), d, (nobs g), c, sg. split; [reflexivity|]. split; [|auto].
  constructor; auto; cbn [m_graph m_mwpm]; [exists false; reflexivity|]. intros _ d' r' E'. injection E' as <- <-. split; [exact RD|]. exists (nobs g), c, sg. exact SV.
Qed.
Lemma get_ok : forall m g, fits m g -> fault_ids_in_range g -> scalable g ->
  exists m' d r k c sg, get_decoder m = Ok (m', d, r) /\ fits m' g /\ serves g d k c sg /\ ready d r.
Proof.
  intros m g F IDS SC. destruct (make_ok m g false F IDS SC) as (m' & d & k & c & sg & E & H1 & H2 & H3 & _). unfold get_decoder.
  destruct (needs (m_graph m)) eqn:En; [exists m', d, (run_init d), k, c, sg; auto|].
  destruct (m_mwpm m) as [[d0 r0]|] eqn:Em; [|exists m', d, (run_init d), k, c, sg; auto].
  destruct (f_dec _ _ F En d0 r0 Em) as [R (k0 & c0 & sg0 & SV)]. exists m, d0, r0, k0, c0, sg0. auto.
Qed.
(** A decoder without a search graph, in a graph without nodes. *)
Lemma with_search_ok : forall (g : ugraph RN) d c sg, Inv g -> decoder_of g d c sg -> length (adj (d_graph d)) = search_size d ->
  decoder_of g (with_search d) c sg /\ d_search (with_search d) = Some sg.
Proof.
  intros g d c sg INV DO L. assert (X : d_search (with_search d) = Some sg).
  { unfold with_search, search_size in *. cbn [d_search]. destruct (do_so _ _ _ _ DO) as [E|[_ E]]; rewrite E in *; [reflexivity|].
    assert (Z : num_nodes g = 0) by (destruct (build_built _ _ _ _ (do_mg _ _ _ _ DO)) as (_ & Lg & _); rewrite <- Lg; exact L).
    assert (EE : edges g = []). { destruct INV as (_ & HN & _). destruct (edges g) as [|e l]; [reflexivity|]. destruct (HN e (or_introl eq_refl)) as [N1 _]. unfold num_nodes in Z. lia. }
    pose proof (do_sg _ _ _ _ DO) as Hs. rewrite Z, EE in Hs. cbn in Hs. injection Hs as <-. reflexivity. }
  split; [|exact X]. destruct DO. constructor; auto.
Qed.
Lemma with_search_ready : forall d r, ready d r -> ready (with_search d) r.
Proof.
  intros d r [R1 R2 R3 R4 R5]. split; auto. intros sg Hs. unfold with_search in Hs. cbn [d_search] in Hs. destruct (d_search d) as [sg0|] eqn:E; injection Hs as <-; [now apply R5|].
  cbn [sadj]. intros u i H. elim H. unfold M_Core.nbrs. destruct u; destruct i; reflexivity.
Qed.
Lemma ready_without : forall d r, ready (with_search d) r -> ready d r.
Proof. intros d r [R1 R2 R3 R4 R5]. split; auto. intros sg Hs. apply R5. unfold with_search. cbn [d_search]. now rewrite Hs. Qed.
Lemma get_search_ok : forall m g, fits m g -> fault_ids_in_range g -> scalable g ->
  exists m' d r k c sg, get_decoder_with_search m = Ok (m', d, r) /\ fits m' g /\ serves g d k c sg /\ ready d r /\
    decoder_of (at_nobs g k) (with_search d) c sg /\ d_search (with_search d) = Some sg /\ length (adj (d_graph d)) = search_size d.
Proof.
  intros m g F IDS SC. destruct (make_ok m g true F IDS SC) as (m' & d & k & c & sg & E & H1 & H2 & H3 & H4). unfold get_decoder_with_search.
  assert (X : exists m' d r k c sg, make (m_graph m) true = Ok (m', d, r) /\ fits m' g /\ serves g d k c sg /\ ready d r /\ decoder_of (at_nobs g k) (with_search d) c sg /\ d_search (with_search d) = Some sg /\ length (adj (d_graph d)) = search_size d).
  { exists m', d, (run_init d), k, c, sg. specialize (H4 eq_refl). assert (W : with_search d = d) by (unfold with_search; destruct d; cbn in *; rewrite H4; reflexivity). rewrite W. split; [exact E|]. split; [exact H1|]. split; [exact H2|]. split; [exact H3|]. split; [exact (sv_of _ _ _ _ _ H2)|]. split; [exact H4|]. unfold search_size. rewrite H4.
    destruct (sv_of _ _ _ _ _ H2) as [Q1 Q2 Q3 Q4 Q5 Q6 Q7]. destruct (sg_facts _ _ _ _ _ Q2 Q3 (convert_all_fop _ _ _ (E_fop g (f_inv _ _ F) c)) (fun e He => proj1 (C_even (at_nobs g k) (f_inv _ _ F) d c sg (sv_of _ _ _ _ _ H2) e He))) as (_ & _ & _ & SH & _). exact (shape_length _ _ SH). }
  destruct (needs (m_graph m)) eqn:En; [exact X|]. destruct (m_mwpm m) as [[d0 r0]|] eqn:Em; [|exact X].
  destruct (Nat.eqb_spec (length (adj (d_graph d0))) (search_size d0)) as [L|L]; [|exact X].
  destruct (f_dec _ _ F En d0 r0 Em) as [R (k0 & c0 & sg0 & SV)]. exists m, d0, r0, k0, c0, sg0.
  destruct (with_search_ok (at_nobs g k0) d0 c0 sg0 (f_inv _ _ F) (sv_of _ _ _ _ _ SV) L) as [W1 W2]. repeat (split; [assumption || reflexivity|]). exact L.
Qed.

(** ** No correction *)
Lemma resets_idle : forall l q, search_idle q -> search_idle (fold_left sreset_node l q).
Proof.
  induction l as [|a l IH]; intros q H; [exact H|]. cbn [fold_left]. apply IH. destruct H as [H1 H2 H3 H4]. split; cbn [sreset_node sfrom spre strk sque snow sreached]; auto.
  intros v. unfold upd. destruct (v =? a); [repeat split|apply H1].
Qed.
Lemma throw_ok : forall g d k c sg r evs, Inv g -> flags_ok RN g -> serves g d k c sg -> ready d r -> NoDup evs -> (forall v, In v evs -> v < num_nodes g) -> compact g -> (forall F, ~ corrects g F evs) ->
  exists K r', (forall fuel, K <= fuel -> decode_h (adj (d_graph d)) fuel cyclic_ints (d_neg d) (r_state r) (r_heap r) evs = Throw /\ after_throw fuel cyclic_ints d r evs = Ok r') /\ ready d r'.
Proof.
  intros g d k c sg r evs INV FL [S1 S2 S3] RD ND IR HC HF.
  destruct (graph_fails (at_nobs g k) INV FL d c sg S3 r evs RD ND IR HC HF) as (K & s' & h' & D1 & D2 & D3 & D4).
  exists K, (mkRun s' h' (fold_left sreset_node (seq 0 (search_size d)) (r_search r)) (r_sheap r) (r_marks r)). split.
  - intros f Hf. split; [now apply D1|]. unfold after_throw. rewrite D2 by exact Hf. reflexivity.
  - destruct RD as [R1 R2 R3 R4 R5]. split; cbn [r_state r_heap r_search r_sheap r_marks]; auto. now apply resets_idle.
Qed.
Lemma into_throws : forall g d k c sg r evs fuel buf, serves g d k c sg ->
  decode_h (adj (d_graph d)) fuel cyclic_ints (d_neg d) (r_state r) (r_heap r) evs = Throw -> decode_into fuel cyclic_ints d r evs buf = Throw.
Proof.
  intros g d k c sg r evs fuel buf [_ _ DO] H. unfold decode_into, py_decode_h, decode_events_h. rewrite (do_nobs _ _ _ _ DO).
  destruct (Nat.ltb_spec 64 (nobs (at_nobs g k))) as [L|L]; [|rewrite H; reflexivity].
  destruct (do_so _ _ _ _ DO) as [E|[L2 _]]; [|lia]. rewrite E. unfold decode_many_observables_h. rewrite H. reflexivity.
Qed.
(** The two cases there are. *)
Lemma ask_cases : forall g P evs, askable g P -> (forall v, In v evs <-> P v) ->
  (explainable g P /\ solvable g P) \/ (compact g /\ (forall v, In v evs -> v < num_nodes g) /\ (forall F, ~ corrects g F evs) /\ ~ solvable g P).
Proof.
  intros g P evs HA HE. assert (X : explainable g P -> explainable g P /\ solvable g P) by (intros H; split; [exact H|]; destruct H as (l & F & H1 & H2 & _); now exists l, F).
  destruct HA as [HA|[HC HR]]; [auto|]. destruct (Classical_Prop.classic (exists F, corrects g F evs)) as [[F HF]|N].
  - left. apply X. exists evs, F. split; [exact HE|]. split; [exact HF|now right].
  - right. split; [exact HC|]. split; [intros v Hv; now apply HR, HE|]. split; [intros F HF; apply N; now exists F|].
    intros (l & F & H1 & H2). apply N. exists F. apply (corrects_iff g F l); [intros v; now rewrite H1, HE|exact H2].
Qed.

(** ** One call *)
Lemma decode_into_ok : forall g d k c sg r evs P, Inv g -> flags_ok RN g -> serves g d k c sg -> ready d r -> conversion_harmless g -> NoDup evs -> (forall v, In v evs <-> P v) -> explainable g P ->
  exists K r' row w, (forall fuel, K <= fuel -> decode_into fuel cyclic_ints d r evs (repeat 0%Z (nobs g)) = Ok (r', row, w)) /\ ready d r' /\ right_row g P row w.
Proof.
  intros g d k c sg r evs P INV FL [S1 S2 S3] RD HARM ND HE (evs0 & F & E0 & HF & HS).
  assert (HF' : corrects g F evs) by (apply (corrects_iff g F evs0); [intros v; rewrite E0, HE; reflexivity|exact HF]).
  destruct (graph_decode_h (at_nobs g k) INV FL d c sg S3 HARM r evs RD ND (explained_range g F evs INV FL HF') F HF' HS) as (K & r' & o & w & D1 & D2 & X & X1 & X2 & X3 & X4).
  exists K, r', (map (fun i => Z.b2z (flips_observable i X)) (seq 0 (nobs g))), w. split; [|split; [exact D2|]].
  - intros f Hf. unfold decode_into. rewrite D1 by exact Hf. cbn [bindO fst snd]. rewrite X1. change (nobs (at_nobs g k)) with k. rewrite (row_padded g k X S1 S2 (proj1 (proj2 X2))). reflexivity.
  - exists evs, X. split; [exact HE|]. split; [reflexivity|]. split; [exact X2|]. split; [exact X3|exact X4].
Qed.
Lemma b2z_bit : forall f l p, In p (map (fun i : nat => Z.b2z (f i)) l) -> is_bit p.
Proof. intros f l p H. apply in_map_iff in H as (i & <- & _). destruct (f i); [now right|now left]. Qed.
Definition batch_good (g : ugraph RN) (ps pp : bool) (shots : list (list Z)) (x : option (list (list Z * R))) : Prop :=
  match x with
  | Some l => Forall2 (right_shot g ps pp) shots l /\ Forall (fun shot => solvable g (shot_event ps shot)) shots
  | None => Exists (fun shot => ~ solvable g (shot_event ps shot)) shots
  end.
Lemma batch_ok : forall g d k c sg ps pp, Inv g -> flags_ok RN g -> serves g d k c sg -> conversion_harmless g -> forall shots r, ready d r -> Forall (fun shot => askable g (shot_event ps shot)) shots ->
  exists K r' x, ready d r' /\ batch_good g ps pp shots x /\ forall fuel, K <= fuel ->
    match x with
    | Some l => decode_batch running (decode_into fuel cyclic_ints d) (nobs g) ps pp r shots = Ok (r', l)
    | None => decode_batch running (decode_into fuel cyclic_ints d) (nobs g) ps pp r shots = Throw /\ batch_left fuel cyclic_ints d (nobs g) ps pp r shots = Ok r'
    end.
Proof.
  intros g d k c sg ps pp INV FL SV HARM shots. induction shots as [|shot shots IH]; intros r RD HX.
  - exists 0, r, (Some []). split; [exact RD|]. split; [split; constructor|reflexivity].
  - destruct (shot_events_ok ps shot) as [ND HE]. destruct (ask_cases g _ _ (Forall_inv HX) HE) as [[EX SX]|(HC & HR & HN & HS)].
    + destruct (decode_into_ok g d k c sg r _ _ INV FL SV RD HARM ND HE EX) as (K1 & r1 & row & w & D1 & D2 & D3).
      destruct (IH r1 D2 (Forall_inv_tail HX)) as (K2 & r2 & x & E2 & E3 & E1).
      assert (Y : exists row', (forall fuel, K1 <= fuel -> decode_one running (decode_into fuel cyclic_ints d) (nobs g) ps pp r shot = Ok (r1, row', w)) /\ right_shot g ps pp shot (row', w)).
      { unfold decode_one. destruct pp.
        - assert (L : length row = nobs g /\ forall p, In p row -> is_bit p).
          { destruct D3 as (? & X & _ & -> & _). split; [now rewrite map_length, seq_length|]. intros p. apply b2z_bit. }
          destruct L as [L1 L2]. destruct (pack_ok row L2) as (row' & P1 & P2 & P3 & P4). rewrite L1 in P1, P2. exists row'. split.
          + intros f Hf. rewrite D1 by exact Hf. cbn [bindO]. rewrite P1. reflexivity.
          + exists row. cbn [fst snd]. auto.
        - exists row. split; [exact D1|]. exists row. cbn [fst snd]. auto. }
      destruct Y as (row' & Y1 & Y2). exists (Nat.max K1 K2), r2, (option_map (cons (row', w)) x). split; [exact E2|]. split.
      * destruct x as [l|]; cbn [option_map batch_good] in *; [destruct E3; split; constructor; assumption|now apply Exists_cons_tl].
      * intros f Hf. specialize (E1 f ltac:(lia)). specialize (Y1 f ltac:(lia)). cbn [decode_batch batch_left]. rewrite Y1. cbn [bindO]. destruct x as [l|]; cbn [option_map]; [rewrite E1; reflexivity|].
        destruct E1 as [E1 E4]. rewrite E1. split; [reflexivity|exact E4].
    + destruct (throw_ok g d k c sg r _ INV FL SV RD ND HR HC HN) as (K & r' & D1 & D2). exists K, r', None. split; [exact D2|]. split; [now apply Exists_cons_hd|].
      intros f Hf. destruct (D1 f Hf) as [D3 D4]. cbn [decode_batch batch_left].
      assert (Y : decode_one running (decode_into f cyclic_ints d) (nobs g) ps pp r shot = Throw) by (unfold decode_one; rewrite (into_throws g d k c sg r _ f _ SV D3); destruct pp; reflexivity).
      rewrite Y. split; [reflexivity|exact D4].
Qed.
Lemma pairs_small : forall m g z give, fits m g -> accepted g z -> usable g -> (forall c, normalising_constant (map weight (edges g)) = Ok c -> forall e, In e (edges g) -> (0 <= discretise c (weight e))%Z) -> askable g (event_at z) ->
  forall evs, NoDup evs -> (forall v, In v evs <-> event_at z v) ->
  exists K m' x, (forall fuel, K <= fuel -> pairs_call fuel cyclic_ints m evs give = Ok (m', match x with Some out => give out | None => Raised end)) /\ fits m' g /\
    match x with Some out => right_pairs g (event_at z) out /\ solvable g (event_at z) | None => ~ solvable g (event_at z) end.
Proof.
  intros m g z give FT HA (IDS & SC & HARM) POS AS evs ND HE.
  destruct (ask_cases g _ evs AS HE) as [[(evs0 & F & E0 & HF & HS) SX]|(HC & HR & HN & HX)].
  2: { destruct (get_ok m g FT IDS SC) as (m' & d & r & k & c & sg & G1 & G2 & G3 & G4). destruct (throw_ok g d k c sg r evs (f_inv _ _ FT) (f_flags _ _ FT) G3 G4 ND HR HC HN) as (K & r' & D1 & D2).
       exists K, (keep m' d r'), None. split; [|split; [apply fits_keep; [exact G2|exists k, c, sg; exact G3|exact D2]|exact HX]].
       intros f Hf. destruct (D1 f Hf) as [D3 D4]. unfold pairs_call. rewrite G1. cbn [unless_thrown]. unfold match_edges_h. 
       destruct (negb (neg_sum (d_neg d) =? 0)%Z) eqn:NG; [exfalso|rewrite D3; cbn [bindO unless_thrown]; rewrite D4; reflexivity].
       rewrite (proj2 (no_negative (at_nobs g k) (f_inv _ _ FT) d c sg (sv_of _ _ _ _ _ G3) (POS c (do_c _ _ _ _ (sv_of _ _ _ _ _ G3))))) in NG. discriminate. }
  assert (HF' : corrects g F evs) by (apply (corrects_iff g F evs0); [intros v; rewrite E0, HE; reflexivity|exact HF]).
  destruct (get_ok m g FT IDS SC) as (m' & d & r & k & c & sg & G1 & G2 & G3 & G4). pose proof (f_inv _ _ FT) as INV. pose proof (f_flags _ _ FT) as FL.
  destruct (graph_pairs_h (at_nobs g k) INV FL d c sg (sv_of _ _ _ _ _ G3) HARM (POS c (do_c _ _ _ _ (sv_of _ _ _ _ _ G3))) r evs G4 ND (explained_range g F evs INV FL HF') F HF' HS) as (K & r' & l & out & D1 & D2 & D3 & D4).
  exists K, (keep m' d r'), (Some out). split; [|split; [|split; [|exact SX]]].
  - intros f Hf. unfold pairs_call. rewrite G1. cbn [unless_thrown]. rewrite D1 by exact Hf. cbn [unless_thrown]. rewrite D2. reflexivity.
  - apply fits_keep; [exact G2|exists k, c, sg; exact G3|exact D3].
  - destruct D4 as (P1 & P2 & evs1 & Qs & P3 & P4 & P5). split; [exact P1|]. split; [intros v; rewrite P2, HE; reflexivity|]. exists evs1, Qs. split; [intros v; rewrite P3; apply HE|]. split; [exact P4|exact P5].
Qed.
Lemma pairs_ok : forall m g z give, fits m g -> accepted g z -> usable g -> (forall e, In e (edges g) -> (0 <= weight e)%R) -> askable g (event_at z) ->
  forall evs, NoDup evs -> (forall v, In v evs <-> event_at z v) ->
  exists K m' x, (forall fuel, K <= fuel -> pairs_call fuel cyclic_ints m evs give = Ok (m', match x with Some out => give out | None => Raised end)) /\ fits m' g /\
    match x with Some out => right_pairs g (event_at z) out /\ solvable g (event_at z) | None => ~ solvable g (event_at z) end.
Proof. intros m g z give FT HA U POS. exact (pairs_small m g z give FT HA U (fun c HC => pos_kept g c HC POS)). Qed.
Lemma accepted_dec : forall g z, accepted g z \/ ~ accepted g z.
Proof. intros g z. destruct z as [l|nc rows|]; cbn [accepted]; [|destruct (Nat.eq_dec (length rows * nc) (num_detectors g)); tauto|tauto]. destruct (le_dec (num_detectors g) (length l)), (le_dec (length l) (num_detectors g + length (bnodes g))); tauto. Qed.
Lemma accepted_batch_dec : forall g ps z, accepted_batch g ps z \/ ~ accepted_batch g ps z.
Proof. intros g ps z. destruct z as [l|nc rows|]; [right; intros []| |right; intros []]. rewrite batch_ok_iff. destruct (batch_shape_ok g ps nc); auto. Qed.

Lemma step_ok : forall m g c, fits m g -> fair g c ->
  exists K m' r, (forall fuel, K <= fuel -> mstep fuel cyclic_ints m c = Ok (m', r)) /\ right g c r /\ fits m' (after g c).
Proof.
  intros m g c FT HF. pose proof (f_inv _ _ FT) as INV. pose proof (f_flags _ _ FT) as FL. destruct (f_graph _ _ FT) as [b Eg].
  assert (EV : forall z, events_in (m_graph m) z = events_in g z) by (intros z; now rewrite Eg). assert (NO : nobs (m_graph m) = nobs g) by now rewrite Eg.
  destruct c as [x|z|ps pp z|z|z|z]; cbn [fair right after mstep] in *.
  - exists 0, (mkMatching (apply_op (m_graph m) x) (m_mwpm m)), (if raises (m_graph m) x then Raised else Done). split; [reflexivity|]. assert (Er : raises (m_graph m) x = raises g x) by (rewrite Eg; apply raises_set). rewrite Er. destruct (raises_spec g x INV) as [R1 R2]. split.
    + split; intros H; [now rewrite R1|now rewrite R2].
    + constructor; cbn [m_graph m_mwpm].
      * rewrite Eg. apply op_set.
      * now apply apply_op_inv.
      * exact (flags_run RN [x] g FL).
      * exact (step_weights RN_merge_in_range g x INV (f_weights _ _ FT)).
      * intros Hn d r Em. assert (INV' : Inv (m_graph m)) by (rewrite Eg; exact INV). destruct (apply_op_needs (m_graph m) x INV') as [H|(H1 & (H2 & H3 & H4) & H5)]; [congruence|]. rewrite H1 in Hn.
        destruct (f_dec _ _ FT Hn d r Em) as [RD (k & c & sg & [S1 S2 S3])]. split; [exact RD|]. exists k, c, sg. destruct (op_set g b x) as [b' Eb]. rewrite Eg, Eb in H2, H3, H4, H5. cbn in H2, H3, H4, H5.
        split; [lia| |].
        -- intros e o He Ho. cbn in He. rewrite <- H3 in He. exact (S2 e o He Ho).
        -- apply (decoder_same (at_nobs g k)); cbn; auto.
  - destruct (accepted_dec g z) as [HA|HA].
    + destruct (HF HA) as [(IDS & SC & HARM) AS]. destruct (events_in_ok g z HA) as (evs & Ev & ND & HE). destruct (get_ok m g FT IDS SC) as (m' & d & r & k & c & sg & G1 & G2 & G3 & G4).
      destruct (ask_cases g _ evs AS HE) as [[EX SX]|(HC & HR & HN & HX)].
      * destruct (decode_into_ok g d k c sg r evs _ INV FL G3 G4 HARM ND HE EX) as (K & r' & row & w & D1 & D2 & D3).
        exists K, (keep m' d r'), (Row row w). split; [|split; [split; [intros _ _; exists row, w; auto|split; contradiction]|]].
        -- intros f Hf. rewrite EV, Ev, G1. cbn [unless_thrown]. rewrite NO, D1 by exact Hf. reflexivity.
        -- apply fits_keep; [exact G2|exists k, c, sg; exact G3|exact D2].
      * destruct (throw_ok g d k c sg r evs INV FL G3 G4 ND HR HC HN) as (K & r' & D1 & D2).
        exists K, (keep m' d r'), Raised. split; [|split; [split; [contradiction|split; reflexivity]|]].
        -- intros f Hf. destruct (D1 f Hf) as [D3 D4]. rewrite EV, Ev, G1. cbn [unless_thrown]. rewrite (into_throws g d k c sg r evs f _ G3 D3). cbn [unless_thrown]. rewrite D4. reflexivity.
        -- apply fits_keep; [exact G2|exists k, c, sg; exact G3|exact D2].
    + exists 0, m, Raised. split; [intros f _; rewrite EV, (events_in_no g z HA); reflexivity|]. split; [split; [contradiction|split; reflexivity]|exact FT].
  - destruct (accepted_batch_dec g ps z) as [HA|HA].
    + destruct z as [l|nc shots|]; [destruct HA| |destruct HA]. destruct (HF HA) as [(IDS & SC & HARM) AS]. destruct (get_ok m g FT IDS SC) as (m' & d & r & k & c & sg & G1 & G2 & G3 & G4).
      destruct (batch_ok g d k c sg ps pp INV FL G3 HARM shots r G4 AS) as (K & r' & x & D2 & D3 & D1).
      exists K, (keep m' d r'), (match x with Some l => Rows l | None => Raised end). split; [|split; [split; [intros _|contradiction]|]].
      * intros f Hf. assert (S : batch_shape_ok (m_graph m) ps nc = true) by (rewrite Eg; exact (proj1 (batch_ok_iff g ps nc shots) HA)). specialize (D1 f Hf). rewrite S, G1. cbn [unless_thrown]. rewrite NO.
        destruct x as [l|]; [rewrite D1; reflexivity|]. destruct D1 as [D1 D4]. rewrite D1. cbn [unless_thrown]. rewrite D4. reflexivity.
      * destruct x as [l|]; cbn [batch_good] in D3.
        -- destruct D3 as [D3 D4]. split; [intros _; exists l; auto|]. intros H. exfalso. apply Exists_exists in H as (shot & H1 & H2). rewrite Forall_forall in D4. exact (H2 (D4 shot H1)).
        -- split; [|reflexivity]. intros H. exfalso. apply Exists_exists in D3 as (shot & H1 & H2). rewrite Forall_forall in H. exact (H2 (H shot H1)).
      * apply fits_keep; [exact G2|exists k, c, sg; exact G3|exact D2].
    + exists 0, m, Raised. split; [|split; [split; [contradiction|reflexivity]|exact FT]]. intros f _. destruct z as [l|nc shots|]; [reflexivity| |reflexivity].
      rewrite batch_ok_iff in HA. assert (S : batch_shape_ok (m_graph m) ps nc = false) by (rewrite Eg; exact (not_true_is_false _ HA)). now rewrite S.
  - destruct (accepted_dec g z) as [HA|HA].
    + destruct (HF HA) as ((IDS & SC & HARM) & NL & AS). destruct (events_in_ok g z HA) as (evs & Ev & ND & HE).
      destruct (get_search_ok m g FT IDS SC) as (m' & d & r & k & c & sg & G1 & G2 & G3 & G4 & G5 & G6 & G7).
      destruct (ask_cases g _ evs AS HE) as [[(evs0 & F & E0 & HC & HS) SX]|(HC & HR & HN & HX)].
      * assert (HC' : corrects g F evs) by (apply (corrects_iff g F evs0); [intros v; rewrite E0, HE; reflexivity|exact HC]).
        destruct (graph_edges_h (at_nobs g k) INV FL (with_search d) c sg G5 HARM r evs (with_search_ready d r G4) ND (explained_range g F evs INV FL HC') F HC' HS NL G6) as (K & r' & out & D1 & D2 & X & X1 & X2 & X3).
        exists K, (keep m' d r'), (EdgeList out). split; [|split; [split; [intros _ _; exists out; split; [reflexivity|]|split; contradiction]|]].
        -- intros f Hf. rewrite EV, Ev, G1. cbn [unless_thrown]. rewrite D1 by exact Hf. reflexivity.
        -- exists evs, X. split; [exact HE|]. split; [exact X1|]. split; [exact X2|exact X3].
        -- apply fits_keep; [exact G2|exists k, c, sg; exact G3|]. now apply ready_without.
      * destruct (throw_ok g d k c sg r evs INV FL G3 G4 ND HR HC HN) as (K & r' & D1 & D2).
        exists K, (keep m' d r'), Raised. split; [|split; [split; [contradiction|split; reflexivity]|]].
        -- intros f Hf. destruct (D1 f Hf) as [D3 D4]. rewrite EV, Ev, G1. cbn [unless_thrown]. unfold py_decode_to_edges_h. rewrite G6. cbn [with_search d_graph]. unfold decode_to_edges_h.
           destruct (_ =? length (sadj sg)); cbn [negb]; [|cbn [bindO unless_thrown]; rewrite D4, G7, Nat.eqb_refl; reflexivity]. change (d_neg (with_search d)) with (d_neg d). rewrite D3. cbn [bindO unless_thrown].
           rewrite D4, G7, Nat.eqb_refl. reflexivity.
        -- apply fits_keep; [exact G2|exists k, c, sg; exact G3|exact D2].
    + exists 0, m, Raised. split; [intros f _; rewrite EV, (events_in_no g z HA); reflexivity|]. split; [split; [contradiction|split; reflexivity]|exact FT].
  - destruct (accepted_dec g z) as [HA|HA].
    + destruct (HF HA) as (U & POS & EX). destruct (events_in_ok g z HA) as (evs & Ev & ND & HE). destruct (pairs_ok m g z PairList FT HA U POS EX evs ND HE) as (K & m' & x & D1 & D2 & D3).
      exists K, m', (match x with Some out => PairList out | None => Raised end). split; [intros f Hf; rewrite EV, Ev; now apply D1|]. split; [|exact D2].
      destruct x as [out|]; [destruct D3 as [D3 D4]; split; [intros _ _; exists out; auto|split; contradiction]|split; [contradiction|split; reflexivity]].
    + exists 0, m, Raised. split; [intros f _; rewrite EV, (events_in_no g z HA); reflexivity|]. split; [split; [contradiction|split; reflexivity]|exact FT].
  - destruct (accepted_dec g z) as [HA|HA].
    + destruct (HF HA) as (U & POS & EX). destruct (events_in_ok g z HA) as (evs & Ev & ND & HE). destruct (pairs_ok m g z (fun p => PairDict (dict_of p)) FT HA U POS EX evs ND HE) as (K & m' & x & D1 & D2 & D3).
      exists K, m', (match x with Some out => PairDict (dict_of out) | None => Raised end). split; [intros f Hf; rewrite EV, Ev; now apply D1|]. split; [|exact D2].
      destruct x as [out|]; [destruct D3 as [D3 D4]; split; [intros _ _|split; contradiction]|split; [contradiction|split; reflexivity]]. exists (dict_of out). split; [reflexivity|]. exists out. split; [exact D3|]. apply dict_of_spec. exact (proj1 D3).
    + exists 0, m, Raised. split; [intros f _; rewrite EV, (events_in_no g z HA); reflexivity|]. split; [split; [contradiction|split; reflexivity]|exact FT].
Qed.
Lemma run_ok : forall cs m g, fits m g -> all_fair g cs -> exists K m' rs, (forall fuel, K <= fuel -> mrun fuel cyclic_ints m cs = Ok (m', rs)) /\ all_right g cs rs.
Proof.
  induction cs as [|c cs IH]; intros m g FT HF; [exists 0, m, []; split; [reflexivity|exact I]|]. destruct HF as [H1 H2].
  destruct (step_ok m g c FT H1) as (K1 & m1 & r & A1 & A2 & A3). destruct (IH m1 (after g c) A3 H2) as (K2 & m2 & rs & B1 & B2).
  exists (Nat.max K1 K2), m2, (r :: rs). split; [|split; assumption]. intros f Hf. cbn [mrun]. rewrite A1 by lia. cbn [bindO fst snd]. rewrite B1 by lia. reflexivity.
Qed.
Lemma new_fits : forall g, Inv g -> flags_ok RN g -> (forall e, In e (edges g) -> w_exceeds RN (weight e) = false) -> fits (new_matching g) g.
Proof. intros g H1 H2 H3. destruct (set_same g) as [b Eb]. constructor; auto; [exists b; exact Eb|]. cbn. discriminate. Qed.
Lemma session_ok : forall n k cs, all_fair (new_graph RN n k) cs ->
  exists K m' rs, (forall fuel, K <= fuel -> mrun fuel cyclic_ints (new_matching (new_graph RN n k)) cs = Ok (m', rs)) /\ all_right (new_graph RN n k) cs rs.
Proof. intros n k cs. apply run_ok. apply new_fits; [apply new_inv|apply flags_new|intros e []]. Qed.
