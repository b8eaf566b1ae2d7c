(** Both passes of decoding with edge correlations. *)
From Coq Require Import ZArith NArith List Bool Arith Lia Permutation.
From Verif Require Import M_Base M_Core M_Session S_Core S_Session S_Decode S_Reach M_Build S_Build M_Flip S_Flip P_Flip M_Search S_Search M_ToEdges S_ToEdges M_Reweight S_Reweight P_Reweight
  M_Correlated S_Correlated P_Build P_Convert P_Convert2 P_Signed P_ToEdges P_ToEdges2 P_CoreGeo P_CoreDecode P_Decode P_Halt P_Halt2 P_Signed P_Machine P_Correlated.
Import ListNotations.
Local Open Scope nat_scope.

(** Edges that differ only in their weights, the second ones being no heavier. *)
Definition lighter (e f : sedge) : Prop :=
  let '(u, x, w, o) := e in let '(u', x', w', o') := f in u = u' /\ x = x' /\ o = o' /\ (0 <= w' <= w)%Z /\ (Z.even w = true -> Z.even w' = true).
Lemma lighter_refl : forall E, (forall e, In e E -> (0 <= s_weight e)%Z) -> Forall2 lighter E E.
Proof. induction E as [|[[[u x] w] o] E IH]; intros P; constructor; [specialize (P _ (or_introl eq_refl)); cbn in P; repeat split; auto; lia|]. apply IH. intros e He. apply P. now right. Qed.
Lemma lighter_lowered : forall R X, (forall e, In e (map fst R) -> (0 <= s_weight e)%Z) -> Forall2 lighter (map fst R) (lowered R X).
Proof.
  intros R X. unfold lowered. generalize (active R X). intros L. induction R as [|[[[[u x] w] o] rs] R IH]; intros P; constructor; [|apply IH; intros e He; apply P; now right].
  cbn [fst lowered_edge lighter]. specialize (P _ (or_introl eq_refl)). cbn [fst s_weight] in P. split; [reflexivity|]. split; [reflexivity|]. split; [reflexivity|].
  set (l := map implied _). destruct (fold_min l w) as (A & B & C). split; [split; [|exact A]|].
  - destruct C as [->|H]; [exact P|]. apply in_map_iff in H as (r & <- & _). unfold implied. lia.
  - intros Ev. destruct C as [->|H]; [exact Ev|]. apply in_map_iff in H as (r & <- & _). unfold implied. rewrite Z.abs_mul. change (Z.abs 2) with 2%Z. apply Z.even_spec. now exists (Z.abs (snd r)).
Qed.

Lemma lighter_alike : forall E E', Forall2 lighter E E' -> Forall2 alike_edge E E'.
Proof. intros E E' HL. induction HL as [|[[[u x] w] o] [[[u' x'] w'] o'] l l' H _ IH]; constructor; auto. unfold lighter in H. unfold alike_edge. repeat split; try apply H; lia. Qed.
Lemma lighter_in : forall E E', Forall2 lighter E E' -> forall f, In f E' -> exists e, In e E /\ lighter e f.
Proof. intros E E' HL. induction HL as [|e f l l' H _ IH]; intros f' Hf; [destruct Hf|]. destruct Hf as [<-|Hf]; [exists e; split; [now left|exact H]|]. destruct (IH f' Hf) as (e' & H1 & H2). exists e'. split; [now right|exact H2]. Qed.
Lemma lighter_np : forall E E', Forall2 lighter E E' -> ForallOrdPairs (fun e f => ~ parallel e f) E -> ForallOrdPairs (fun e f => ~ parallel e f) E'.
Proof.
  intros E E' HL. induction HL as [|e f l l' H HF IH]; intros NP; constructor; inversion NP; subst; [|now apply IH]. rewrite Forall_forall in *. intros f' Hf.
  assert (Ex : exists e', In e' l /\ lighter e' f'). { clear -HF Hf. induction HF as [|a b l l' H _ IH]; [destruct Hf|]. destruct Hf as [<-|Hf]; [exists a; split; [now left|exact H]|]. destruct (IH Hf) as (e' & H1 & H2). exists e'. split; [now right|exact H2]. }
  destruct Ex as (e' & He' & Hl'). specialize (H2 e' He'). destruct e as [[[u x] w] o], f as [[[u' x'] w'] o'], e' as [[[a y] v] b], f' as [[[a' y'] v'] b']. unfold lighter in H, Hl'. unfold parallel in *. destruct H as (-> & -> & _), Hl' as (-> & -> & _). exact H2.
Qed.
Lemma lighter_ev : forall E E', Forall2 lighter E E' -> (forall e, In e E -> Z.even (s_weight e) = true) -> forall e, In e E' -> Z.even (s_weight e) = true.
Proof. intros E E' HL H f Hf. destruct (lighter_in E E' HL f Hf) as (e & He & Hl). specialize (H e He). destruct e as [[[u x] w] o], f as [[[u' x'] w'] o']. cbn [s_weight] in *. apply Hl, H. Qed.
Lemma lighter_pos : forall E E', Forall2 lighter E E' -> forall e, In e E' -> (0 <= s_weight e)%Z.
Proof. intros E E' HL f Hf. destruct (lighter_in E E' HL f Hf) as (e & He & Hl). destruct e as [[[u x] w] o], f as [[[u' x'] w'] o']. cbn [s_weight] in *. apply Hl. Qed.
Lemma lighter_ends : forall v e f, lighter e f -> s_ends v f = s_ends v e.
Proof. intros v [[[u x] w] o] [[[u' x'] w'] o'] (-> & -> & _). reflexivity. Qed.
Lemma lighter_bare : forall E E', Forall2 lighter E E' -> forall bnd, boundary_bare bnd E -> boundary_bare bnd E'.
Proof. intros E E' HL bnd H v Hv f Hf. destruct (lighter_in E E' HL f Hf) as (e & He & Hl). rewrite (lighter_ends v e f Hl). exact (H v Hv e He). Qed.
Lemma lighter_select : forall E E', Forall2 lighter E E' -> forall X, Forall2 lighter (select E X) (select E' X).
Proof. intros E E' HL. induction HL as [|e f l l' H _ IH]; intros X; cbn [select]; [constructor|]. destruct X as [|[] X]; [constructor|constructor; auto|apply IH]. Qed.
Lemma lighter_degree : forall v F F', Forall2 lighter F F' -> s_degree v F' = s_degree v F.
Proof. intros v F F' H. induction H as [|e f l l' H _ IH]; [reflexivity|]. cbn [s_degree fold_right]. rewrite (lighter_ends v e f H). f_equal. exact IH. Qed.
Lemma lighter_flips : forall k F F', Forall2 lighter F F' -> s_flips k F' = s_flips k F.
Proof. intros k F F' H. induction H as [|[[[u x] w] o] [[[u' x'] w'] o'] l l' (_ & _ & -> & _) _ IH]; [reflexivity|]. unfold s_flips in *. cbn [fold_right]. f_equal. exact IH. Qed.
Lemma lighter_total : forall F F', Forall2 lighter F F' -> (s_total F' <= s_total F)%Z.
Proof. intros F F' H. induction H as [|[[[u x] w] o] [[[u' x'] w'] o'] l l' (_ & _ & _ & H & _) _ IH]; [reflexivity|]. unfold s_total in *. cbn [fold_right s_weight]. lia. Qed.
Lemma lighter_solves : forall E E', Forall2 lighter E E' -> forall S X, solves E' S X <-> solves E S X.
Proof.
  intros E E' HL S X. unfold solves. assert (L : length E' = length E) by (clear S X; induction HL; cbn; congruence). rewrite L.
  split; intros [H1 H2]; (split; [exact H1|]); intros v; specialize (H2 v); rewrite (lighter_degree v _ _ (lighter_select E E' HL X)) in *; exact H2.
Qed.
Lemma lighter_path : forall E E', Forall2 lighter E E' -> forall a x l, s_path E a x l -> exists l', s_path E' a x l' /\ (l' <= l)%Z.
Proof.
  intros E E' HL a x l H. induction H as [|v l x u y w o H IH Hin Hx]; [exists 0%Z; split; [constructor|lia]|]. destruct IH as (l' & P & L).
  assert (X : exists w', In (u, y, w', o) E' /\ (0 <= w' <= w)%Z).
  { clear - HL Hin. induction HL as [|e [[[u' y'] w'] o'] F F' He HL IH]; [destruct Hin|]. destruct Hin as [->|Hin].
    - destruct He as (<- & <- & <- & He & _). exists w'. split; [now left|exact He].
    - destruct (IH Hin) as (w2 & H1 & H2). exists w2. split; [now right|exact H2]. }
  destruct X as (w' & Hw & Lw). exists (l' + Z.abs w')%Z. split; [exact (s_path_step E' a v l' x u y w' o P Hw Hx)|lia].
Qed.
Lemma heavier_path : forall E E', Forall2 lighter E E' -> forall a x l, s_path E' a x l -> exists l', s_path E a x l'.
Proof.
  intros E E' HL a x l H. induction H as [|v l x u y w o H IH Hin Hx]; [exists 0%Z; constructor|]. destruct IH as (l' & P).
  destruct (lighter_in E E' HL _ Hin) as ([[[u' y'] w'] o'] & He & (-> & -> & -> & _)). eexists. exact (s_path_step E a v l' x u y w' o P He Hx).
Qed.
Lemma lighter_wide : forall E E', Forall2 lighter E E' -> forall Y, wide_enough E (s_total (select E Y)) -> wide_enough E' (s_total (select E' Y)).
Proof.
  intros E E' HL Y [H|H]; [left; exact (Z.le_lt_trans _ _ _ (lighter_total _ _ (lighter_select _ _ HL Y)) H)|right].
  intros a x l P. destruct (heavier_path E E' HL a x l P) as (l1 & P1). destruct (H a x l1 P1) as (l2 & P2 & L2). destruct (lighter_path E E' HL a x l2 P2) as (l3 & P3 & L3). exists l3. split; [exact P3|lia].
Qed.
Lemma lighter_pairs : forall out F F', Forall2 lighter F F' -> lists_edges out F' -> lists_edges out F.
Proof.
  intros out F F' H (L & HP & HF). assert (Hm : map s_pair F' = map s_pair F) by (clear -H; induction H as [|[[[u x] w] o] [[[u' x'] w'] o'] l l' (-> & -> & _) _ IH]; [reflexivity|cbn [map s_pair]; now rewrite IH]).
  pose proof (Permutation_map s_pair HP) as HPm. rewrite Hm in HPm. apply Permutation_map_inv in HPm as (L' & EL & HP'). exists L'. split; [now apply Permutation_sym|].
  clear -EL HF. revert L' EL. induction HF as [|p e l l' H HF IH]; intros [|e' L'] EL; try discriminate; constructor; cbn [map] in EL; injection EL as E1 E2; [now rewrite <- E1|now apply IH].
Qed.
Lemma lighter_neg_pairs : forall E E', Forall2 lighter E E' -> (forall e, In e E -> (0 <= s_weight e)%Z) -> neg_pairs E = [] /\ neg_pairs E' = [].
Proof.
  intros E E' HL P. assert (Z0 : forall F, (forall e, In e F -> (0 <= s_weight e)%Z) -> neg_pairs F = []).
  { intros F HF. unfold neg_pairs. induction F as [|e F IH]; [reflexivity|]. cbn [filter]. pose proof (HF e (or_introl eq_refl)). destruct (Z.ltb_spec (s_weight e) 0); [lia|]. cbn [andb]. apply IH. intros f Hf. apply HF. now right. }
  split; apply Z0; [exact P|exact (lighter_pos E E' HL)].
Qed.

(** One pass to solution edges, with everything the next pass needs. *)
Lemma edges_full : forall nobs n E g sg bnd {NI : ints} orc orc2 s q M evs {AB : able NI (adj g) (neg_info_of nobs g bnd) evs},
  build nobs n E = Ok g -> sbuild n E = Ok sg -> ForallOrdPairs (fun e f => ~ parallel e f) E -> (forall e, In e E -> Z.even (s_weight e) = true) -> boundary_bare bnd E ->
  (forall e, In e E -> (0 <= s_weight e)%Z) -> idle (adj g) s -> search_idle q -> valid_events (adj g) evs -> unmarked (sadj sg) M -> (exists Y, solves E (wanted bnd evs) Y) ->
  exists K s' q' M' out X, (forall fuel, K <= fuel -> decode_to_edges (adj g) (sadj sg) fuel fuel orc orc2 NI (neg_info_of nobs g bnd) (sneg sg) s q M evs = Ok (s', q', M', out)) /\
    idle (adj g) s' /\ search_idle q' /\ (forall u i, M' u i = M u i) /\ best E (wanted bnd evs) X /\ lists_edges out (select E X) /\ (forall e, In e (select E X) -> loop e = false).
Proof.
  intros nobs n E g sg bnd NI orc orc2 s q M evs AB HB HS NP EV BN POS HI HQ V UM [Y HY].
  assert (NL : forall e, In e E -> ~ negative_loop e) by (intros [[[u x] w] o] He [_ H]; specialize (POS _ He); cbn in POS; lia).
  destruct (signed_two nobs n E g bnd HB NP EV orc s evs HI V) as [(K & s' & o & w & l & H)|[K H]].
  - destruct (to_edges_spec2 nobs n E g sg bnd HB HS NP EV BN K orc orc2 s q evs s' o w l HI HQ V (H K (le_n K)) M NL UM) as (k & q' & M' & out & X & a & b & c & d & e & f & h & i).
    exists (Nat.max K k), s', q', M', out, X. split; [|split; [|split; [exact b|split; [exact c|split; [|split; [exact h|exact i]]]]]].
    + intros fuel Hf. rewrite <- (a fuel) by lia. unfold decode_to_edges. rewrite (H fuel), (H K) by lia. reflexivity.
    + exact (decode_idle (adj g) K orc _ s evs (signed_wf nobs n E g HB NP EV) HI V (neg_valid nobs n E g bnd HB) s' _ (H K (le_n K))).
    + split; [exact d|]. intros Z0 HZ. rewrite e. exact (f Z0 HZ).
  - exfalso. exact (signed_throws nobs n E g bnd HB NP EV BN K orc s evs HI V (H K (le_n K)) Y HY).
Qed.

Section Two.
Variables (nobs n : nat) (R : list redge) (D : loaded) (bnd : list bool) (evs : list nat).
Context {NI : ints}.
Let E := map fst R.
Let I := neg_info_of nobs (lg D) bnd.
Let G := adj (lg D).
Let SG := sadj (lsg D).
Hypothesis HL : load nobs n R = Ok D.
Hypothesis NP : ForallOrdPairs (fun e f => ~ parallel e f) E.
Hypothesis EV : forall e, In e E -> Z.even (s_weight e) = true.
Hypothesis POS : forall e, In e E -> (0 <= s_weight e)%Z.
Hypothesis BN : boundary_bare bnd E.
Hypothesis AB : forall E' g', Forall2 lighter E E' -> build nobs n E' = Ok g' -> able NI (adj g') (neg_info_of nobs g' bnd) evs.
Hypothesis V : valid_events G evs.

Lemma load_parts : build nobs n E = Ok (lg D) /\ convert_implied_weights G (rules_table n R) = Ok (lt D) /\ sbuild n E = Ok (lsg D) /\ convert_implied_weights SG (rules_table n R) = Ok (lst D).
Proof.
  unfold load in HL. fold E in HL. destruct (build nobs n E) as [g| | |]; try discriminate. cbn [bindO] in HL. destruct (convert_implied_weights (adj g) (rules_table n R)) as [T| | |] eqn:HT; try discriminate. cbn [bindO] in HL.
  destruct (sbuild n E) as [sg| | |]; try discriminate. cbn [bindO] in HL. destruct (convert_implied_weights (sadj sg) (rules_table n R)) as [TS| | |] eqn:HTS; try discriminate. cbn [bindO] in HL. injection HL as <-. unfold G, SG. cbn. auto.
Qed.
Lemma bare_some : forall (A B : graph) u i, bare A = bare B -> nth_error (nbrs A u) i <> None -> nth_error (nbrs B u) i <> None.
Proof.
  intros A B u i H Hn. pose proof (bare_nth A B u H) as Hu. apply nth_error_Some. apply nth_error_Some in Hn. unfold nbrs in *. apply (f_equal (@length _)) in Hu. rewrite !map_length in Hu. lia.
Qed.

(** The graphs of the second pass. *)
Lemma second_graphs : forall X out, lists_edges out (select E X) -> (forall e, In e (select E X) -> loop e = false) ->
  exists g' sg' p p', build nobs n (lowered R X) = Ok g' /\ sbuild n (lowered R X) = Ok sg' /\ neg_info_of nobs g' bnd = I /\ neg_obss g' = neg_obss (lg D) /\ sneg sg' = sneg (lsg D) /\
    length (adj g') = length G /\ (forall M, unmarked SG M -> unmarked (sadj sg') M) /\
    reweight_graph false (lt D) (flatten out) (G, []) = ((adj g', p), Ok tt) /\ undo_graph (adj g', p) = (G, []) /\
    reweight_graph false (lst D) (flatten out) (SG, []) = ((sadj sg', p'), Ok tt) /\ undo_graph (sadj sg', p') = (SG, []).
Proof.
  intros X out HO HN. destruct load_parts as (HB & HT & HS & HTS).
  destruct (relowered nobs n R (lg D) (lt D) X out HB NP EV POS HT HO HN) as (g' & p & B' & N1 & N2 & N3 & RW & UN).
  destruct (sbuild_alike nobs n E (lg D) HB) as (g0 & sg & H0 & HS0 & HA). rewrite HS in HS0. injection HS0 as <-.
  assert (SE : SG = adj g0) by apply HA. unfold SG in SE.
  destruct (relowered 0 n R g0 (lst D) X out H0 NP EV POS) as (g0' & p' & B0 & _ & _ & _ & RW0 & UN0); [rewrite <- SE; exact HTS|exact HO|exact HN|].
  destruct (sbuild_alike nobs n (lowered R X) g' B') as (g0b & sg' & H0' & HS' & HA'). rewrite B0 in H0'. injection H0' as <-.
  pose proof (lighter_lowered R X POS) as LL. destruct (lighter_neg_pairs E (lowered R X) LL POS) as [Q1 Q2].
  assert (SE' : sadj sg' = adj g0') by apply HA'.
  exists g', sg', p, p'. unfold G, SG. rewrite SE, SE'. split; [exact B'|]. split; [exact HS'|]. split; [unfold I, neg_info_of; now rewrite N1, N2, N3|]. split; [exact N2|].
  split; [rewrite (al_neg _ _ _ _ HA'), (al_neg _ _ _ _ HA), Q1, Q2; reflexivity|].
  destruct (build_alike nobs n E (lowered R X) (lg D) (lighter_alike _ _ LL) HB) as (g2 & B2 & Ba & _). rewrite B' in B2. injection B2 as <-.
  destruct (build_alike 0 n E (lowered R X) g0 (lighter_alike _ _ LL) H0) as (g2 & B2 & Ba0 & _). rewrite B0 in B2. injection B2 as <-.
  split; [symmetry; exact (bare_length _ _ Ba)|]. split; [|auto].
  intros M UM u i Hu. apply UM. eapply bare_some; [symmetry; exact Ba0|exact Hu].
Qed.

Variables (orc orc2 orcb orc2b : nat -> nat) (s : state) (q : search) (M : marks).
Hypothesis HI : idle G s.
Hypothesis HQ : search_idle q.
Hypothesis UM : unmarked SG M.

Lemma idle_len : forall A B x, length A = length B -> idle A x -> idle B x.
Proof. intros A B x H [a b c d]. constructor; auto. now rewrite <- H. Qed.
Lemma valid_len : forall A B x, length A = length B -> valid_events A x -> valid_events B x.
Proof. intros A B x H [a b]. split; [exact a|]. now rewrite <- H. Qed.

(** The first pass and the reweighting. *)
Lemma first_pass : (exists Y, solves E (wanted bnd evs) Y) ->
  exists K X1 g' sg' s1 q1 M1, best E (wanted bnd evs) X1 /\ build nobs n (lowered R X1) = Ok g' /\ sbuild n (lowered R X1) = Ok sg' /\ neg_info_of nobs g' bnd = I /\ neg_obss g' = neg_obss (lg D) /\ sneg sg' = sneg (lsg D) /\
    length (adj g') = length G /\ idle (adj g') s1 /\ search_idle q1 /\ unmarked (sadj sg') M1 /\ unmarked SG M1 /\
    forall fuel (X : Type) (second : graph -> graph -> state -> search -> marks -> outcome (state * search * marks * X)), K <= fuel ->
      forall r, second (adj g') (sadj sg') s1 q1 M1 = Ok r ->
      two_pass false (lt D) (lst D) fuel orc orc2 NI I (sneg (lsg D)) second (G, []) (SG, []) s q M evs = ((G, []), (SG, []), Ok r).
Proof.
  intros Sol. destruct load_parts as (HB & HT & HS & HTS).
  destruct (edges_full nobs n E (lg D) (lsg D) bnd orc orc2 s q M evs (AB := AB E (lg D) (lighter_refl E POS) HB) HB HS NP EV BN POS HI HQ V UM Sol) as (K & s1 & q1 & M1 & out & X1 & H1 & H2 & H3 & H4 & H5 & H6 & H7).
  destruct (second_graphs X1 out H6 H7) as (g' & sg' & p & p' & A1 & A2 & A3 & A4 & A5 & A6 & A7 & A8 & A9 & A10 & A11).
  assert (U1 : unmarked SG M1) by (intros u i Hu; rewrite H4; exact (UM u i Hu)).
  exists K, X1, g', sg', s1, q1, M1. do 6 (split; [assumption|]). split; [exact A6|]. split; [exact (idle_len _ _ _ (eq_sym A6) H2)|]. split; [exact H3|]. split; [exact (A7 _ U1)|]. split; [exact U1|].
  intros fuel X second Hf r Hr. unfold two_pass. cbn [fst snd]. pose proof (H1 fuel Hf) as Q. fold G SG I in Q. rewrite Q, A8, A10. cbn [fst]. rewrite Hr, A9, A11. reflexivity.
Qed.

Lemma correlated_mask_spec : (exists Y, solves E (wanted bnd evs) Y) ->
  exists K s' q' M' o w X1 X2,
    (forall fuel, K <= fuel -> correlated_mask false (lt D) (lst D) fuel orc orc2 NI I (sneg (lsg D)) orcb evs (G, []) (SG, []) s q M = ((G, []), (SG, []), Ok (s', q', M', (o, w)))) /\
    idle G s' /\ search_idle q' /\ unmarked SG M' /\
    best E (wanted bnd evs) X1 /\ best (lowered R X1) (wanted bnd evs) X2 /\ s_total (select (lowered R X1) X2) = w /\ (nobs <= 64 -> forall k, N.testbit o (N.of_nat k) = s_flips k (select E X2)).
Proof.
  intros Sol. destruct (first_pass Sol) as (K & X1 & g' & sg' & s1 & q1 & M1 & B1 & HB' & HS' & EI & EN & ES & LN & I1 & Q1 & U1 & U1' & Run). pose proof (lighter_lowered R X1 POS) as LL.
  pose proof (AB _ _ LL HB') as AB'. pose proof (lighter_np _ _ LL NP) as NP'. pose proof (lighter_ev _ _ LL EV) as EV'. pose proof (lighter_bare _ _ LL bnd BN) as BN'.
  assert (V' : valid_events (adj g') evs) by exact (valid_len _ _ _ (eq_sym LN) V).
  assert (Sol' : exists Y, solves (lowered R X1) (wanted bnd evs) Y) by (destruct Sol as [Y HY]; exists Y; apply (lighter_solves _ _ LL); exact HY).
  destruct (signed_ends nobs n (lowered R X1) g' bnd HB' NP' EV' BN' orcb s1 evs I1 V' Sol') as (K2 & s2 & o & w & l & X2 & H1 & H2 & H3 & H4 & H5).
  exists (Nat.max K K2), s2, q1, M1, o, w, X1, X2. split; [|split; [|split; [exact Q1|split; [exact U1'|split; [exact B1|split; [split; [exact H2|rewrite H3; exact H5]|split; [exact H3|]]]]]]].
  - intros fuel Hf. unfold correlated_mask. apply Run; [lia|]. cbn beta. rewrite <- EI. rewrite (H1 fuel) by lia. reflexivity.
  - apply (idle_len _ _ _ LN). exact (decode_idle (adj g') K2 orcb _ s1 evs (signed_wf nobs n _ g' HB' NP' EV') I1 V' (neg_valid nobs n _ g' bnd HB') s2 _ (H1 K2 (le_n K2))).
  - intros Hn k. rewrite (H4 Hn k). apply lighter_flips. exact (lighter_select _ _ LL X2).
Qed.
Lemma correlated_many_spec : (exists Y, solves E (wanted bnd evs) Y) ->
  exists K s' q' M' o w X1 X2,
    (forall fuel, K <= fuel -> correlated_many false (lt D) (lst D) fuel orc orc2 NI I (sneg (lsg D)) orcb orc2b evs (neg_obss (lg D)) (G, []) (SG, []) s q M = ((G, []), (SG, []), Ok (s', q', M', (o, w)))) /\
    idle G s' /\ search_idle q' /\ unmarked SG M' /\
    best E (wanted bnd evs) X1 /\ best (lowered R X1) (wanted bnd evs) X2 /\ s_total (select (lowered R X1) X2) = w /\ (forall k, N.testbit o (N.of_nat k) = s_flips k (select E X2)).
Proof.
  intros Sol. destruct (first_pass Sol) as (K & X1 & g' & sg' & s1 & q1 & M1 & B1 & HB' & HS' & EI & EN & ES & LN & I1 & Q1 & U1 & U1' & Run). pose proof (lighter_lowered R X1 POS) as LL.
  pose proof (AB _ _ LL HB') as AB'. pose proof (lighter_np _ _ LL NP) as NP'. pose proof (lighter_ev _ _ LL EV) as EV'. pose proof (lighter_bare _ _ LL bnd BN) as BN'.
  assert (V' : valid_events (adj g') evs) by exact (valid_len _ _ _ (eq_sym LN) V).
  assert (Sol' : exists Y, solves (lowered R X1) (wanted bnd evs) Y) by (destruct Sol as [Y HY]; exists Y; apply (lighter_solves _ _ LL); exact HY).
  destruct (signed_ends nobs n (lowered R X1) g' bnd HB' NP' EV' BN' orcb s1 evs I1 V' Sol') as (K2 & s2 & o & w & l & _ & H1 & _).
  destruct (many_spec nobs n (lowered R X1) g' sg' bnd HB' HS' NP' EV' BN' K2 orcb orc2b s1 q1 evs s2 o w l I1 Q1 V' (H1 K2 (le_n K2))) as (k & q' & o' & X2 & a & b & c & d & e & f).
  exists (Nat.max K (Nat.max K2 k)), s2, q', M1, o', w, X1, X2. split; [|split; [|split; [exact b|split; [exact U1'|split; [exact B1|split; [split; [exact c|rewrite d; exact e]|split; [exact d|]]]]]]].
  - intros fuel Hf. unfold correlated_many. apply Run; [lia|]. cbn beta. rewrite <- EI, <- EN.
    assert (Hm : decode_many_observables (adj g') (sadj sg') fuel fuel orcb orc2b NI (neg_info_of nobs g' bnd) (neg_obss g') s1 q1 evs = Ok (s2, q', (o', w))).
    { rewrite <- (a fuel) by lia. unfold decode_many_observables. rewrite (H1 fuel), (H1 K2) by lia. reflexivity. }
    rewrite Hm. reflexivity.
  - apply (idle_len _ _ _ LN). exact (decode_idle (adj g') K2 orcb _ s1 evs (signed_wf nobs n _ g' HB' NP' EV') I1 V' (neg_valid nobs n _ g' bnd HB') s2 _ (H1 K2 (le_n K2))).
  - intros i. rewrite (f i). apply lighter_flips. exact (lighter_select _ _ LL X2).
Qed.
Lemma correlated_edges_spec : (exists Y, solves E (wanted bnd evs) Y) ->
  exists K s' q' M' out X1 X2,
    (forall fuel, K <= fuel -> correlated_edges false (lt D) (lst D) fuel orc orc2 NI I (sneg (lsg D)) orcb orc2b evs (G, []) (SG, []) s q M = ((G, []), (SG, []), Ok (s', q', M', out))) /\
    idle G s' /\ search_idle q' /\ unmarked SG M' /\
    best E (wanted bnd evs) X1 /\ best (lowered R X1) (wanted bnd evs) X2 /\ lists_edges out (select E X2).
Proof.
  intros Sol. destruct (first_pass Sol) as (K & X1 & g' & sg' & s1 & q1 & M1 & B1 & HB' & HS' & EI & EN & ES & LN & I1 & Q1 & U1 & U1' & Run). pose proof (lighter_lowered R X1 POS) as LL.
  pose proof (AB _ _ LL HB') as AB'. pose proof (lighter_np _ _ LL NP) as NP'. pose proof (lighter_ev _ _ LL EV) as EV'. pose proof (lighter_bare _ _ LL bnd BN) as BN'.
  assert (V' : valid_events (adj g') evs) by exact (valid_len _ _ _ (eq_sym LN) V).
  assert (Sol' : exists Y, solves (lowered R X1) (wanted bnd evs) Y) by (destruct Sol as [Y HY]; exists Y; apply (lighter_solves _ _ LL); exact HY).
  destruct (edges_full nobs n (lowered R X1) g' sg' bnd orcb orc2b s1 q1 M1 evs HB' HS' NP' EV' BN' (lighter_pos _ _ LL) I1 Q1 V' U1 Sol') as (K2 & s2 & q2 & M2 & out & X2 & H1 & H2 & H3 & H4 & H5 & H6 & H7).
  exists (Nat.max K K2), s2, q2, M2, out, X1, X2. split; [|split; [exact (idle_len _ _ _ LN H2)|split; [exact H3|split; [|split; [exact B1|split; [exact H5|]]]]]].
  - intros fuel Hf. unfold correlated_edges. apply Run; [lia|]. cbn beta. rewrite <- EI, <- ES. apply H1. lia.
  - intros u i Hu. rewrite H4. exact (U1' u i Hu).
  - exact (lighter_pairs out _ _ (lighter_select _ _ LL X2) H6).
Qed.

(** Without a correction the exception comes from the first pass: the weights are those given. *)
Lemma correlated_raises : (forall Y, ~ solves E (wanted bnd evs) Y) ->
  exists K, forall fuel wc (X : Type) (second : graph -> graph -> state -> search -> marks -> outcome (state * search * marks * X)), K <= fuel ->
    two_pass wc (lt D) (lst D) fuel orc orc2 NI I (sneg (lsg D)) second (G, []) (SG, []) s q M evs = ((G, []), (SG, []), Throw).
Proof.
  intros No. destruct load_parts as (HB & HT & HS & HTS). pose proof (AB E (lg D) (lighter_refl E POS) HB) as AB0.
  destruct (signed_raises nobs n E (lg D) bnd HB NP EV BN orc s evs HI V No) as (K & H). exists K. intros fuel wc X second Hf.
  destruct (to_edges_throws nobs n E (lg D) (lsg D) bnd HB HS NP EV BN fuel orc orc2 s q M evs HI V (H fuel Hf)) as [H1 _].
  unfold two_pass. cbn [fst snd]. fold G SG I in H1. rewrite H1. reflexivity.
Qed.
(** A graph loaded without correlations is refused, unchanged. *)
Lemma correlated_refused : exists K, forall fuel (X : Type) (second : graph -> graph -> state -> search -> marks -> outcome (state * search * marks * X)), K <= fuel ->
    two_pass true (lt D) (lst D) fuel orc orc2 NI I (sneg (lsg D)) second (G, []) (SG, []) s q M evs = ((G, []), (SG, []), Throw).
Proof.
  destruct load_parts as (HB & HT & HS & HTS). pose proof (AB E (lg D) (lighter_refl E POS) HB) as AB0.
  assert (Same : with_weights (weights_of G) G = G).
  { apply (nth_ext _ _ [] []); [apply with_weights_length|]. intros u _. change (nbrs (with_weights (weights_of G) G) u = nbrs G u). apply nth_error_ext. intros k. rewrite with_weights_nth.
    destruct (nth_error (nbrs G u) k) as [[[x w] o]|] eqn:En; [|reflexivity]. now rewrite (weights_at G u k x w o En). }
  destruct (signed_two nobs n E (lg D) bnd HB NP EV orc s evs HI V) as [(K & s' & o & w & l & H)|[K H]].
  - destruct (edges_full nobs n E (lg D) (lsg D) bnd orc orc2 s q M evs HB HS NP EV BN POS HI HQ V UM) as (K1 & s1 & q1 & M1 & out & X1 & H1 & _).
    { destruct (signed_answer nobs n E (lg D) bnd HB NP EV BN K orc s evs s' o w l HI V (H K (le_n K))) as (X & HX & _). now exists X. }
    exists K1. intros fuel X second Hf. unfold two_pass. cbn [fst snd]. pose proof (H1 fuel Hf) as Q. fold G SG I in Q. rewrite Q. unfold reweight_graph, reweight_checked. cbn [fst snd]. now rewrite Same.
  - exists K. intros fuel X second Hf.
    destruct (to_edges_throws nobs n E (lg D) (lsg D) bnd HB HS NP EV BN fuel orc orc2 s q M evs HI V (H fuel Hf)) as [H1 _].
    unfold two_pass. cbn [fst snd]. fold G SG I in H1. rewrite H1. reflexivity.
Qed.
End Two.

(** A batch: every shot is decoded as on a fresh decoder. *)
Lemma batch_all : forall {X} (f : nat -> list nat -> dgraph -> dgraph -> state -> search -> marks -> dgraph * dgraph * outcome (state * search * marks * X)) d ds (Good : state -> search -> marks -> Prop) (Pre : list nat -> Prop) (Post : list nat -> X -> Prop),
  (forall evs s q M, Pre evs -> Good s q M -> exists K s' q' M' x, (forall fuel, K <= fuel -> f fuel evs d ds s q M = (d, ds, Ok (s', q', M', x))) /\ Good s' q' M' /\ Post evs x) ->
  forall shots, Forall Pre shots -> forall s q M, Good s q M ->
  exists K xs, (forall fuel, K <= fuel -> correlated_batch (f fuel) shots d ds s q M = (d, ds, Ok xs)) /\ Forall2 Post shots xs.
Proof.
  intros X f d ds Good Pre Post Step shots HP. induction HP as [|evs shots P0 _ IH]; intros s q M HG.
  - exists 0, []. split; [reflexivity|constructor].
  - destruct (Step evs s q M P0 HG) as (K1 & s1 & q1 & M1 & x & H1 & H2 & H3). destruct (IH s1 q1 M1 H2) as (K2 & xs & H4 & H5).
    exists (Nat.max K1 K2), (x :: xs). split; [|now constructor]. intros fuel Hf. cbn [correlated_batch]. rewrite H1 by lia. rewrite H4 by lia. reflexivity.
Qed.
Lemma correlated_batch_spec : forall nobs n R D bnd orc orc2 orcb, load nobs n R = Ok D -> ForallOrdPairs (fun e f => ~ parallel e f) (map fst R) ->
  (forall e, In e (map fst R) -> Z.even (s_weight e) = true) -> (forall e, In e (map fst R) -> (0 <= s_weight e)%Z) -> boundary_bare bnd (map fst R) ->
  forall shots s q M, idle (adj (lg D)) s -> search_idle q -> unmarked (sadj (lsg D)) M ->
  Forall (fun evs => valid_events (adj (lg D)) evs /\ exists Y, solves (map fst R) (wanted bnd evs) Y) shots ->
  exists K answers,
    (forall fuel, K <= fuel -> correlated_batch (correlated_mask false (lt D) (lst D) fuel orc orc2 exact_ints (neg_info_of nobs (lg D) bnd) (sneg (lsg D)) orcb)
        shots (adj (lg D), []) (sadj (lsg D), []) s q M = ((adj (lg D), []), (sadj (lsg D), []), Ok answers)) /\
    Forall2 (fun evs (a : N * Z) => exists X1 X2, best (map fst R) (wanted bnd evs) X1 /\ best (lowered R X1) (wanted bnd evs) X2 /\
      s_total (select (lowered R X1) X2) = snd a /\ (nobs <= 64 -> forall k, N.testbit (fst a) (N.of_nat k) = s_flips k (select (map fst R) X2))) shots answers.
Proof.
  intros nobs n R D bnd orc orc2 orcb HL NP EV POS BN shots s q M HI HQ UM HS.
  refine (batch_all (fun fuel => correlated_mask false (lt D) (lst D) fuel orc orc2 exact_ints (neg_info_of nobs (lg D) bnd) (sneg (lsg D)) orcb) _ _
    (fun s q M => idle (adj (lg D)) s /\ search_idle q /\ unmarked (sadj (lsg D)) M) _ _ _ shots HS s q M (conj HI (conj HQ UM))).
  clear s q M HI HQ UM HS. intros evs s q M [V Sol] (HI & HQ & UM).
  destruct (correlated_mask_spec nobs n R D bnd evs (NI := exact_ints) HL NP EV POS BN (fun _ _ _ _ => _) V orc orc2 orcb s q M HI HQ UM Sol) as (K & s' & q' & M' & o & w & X1 & X2 & H1 & H2 & H3 & H4 & H5 & H6 & H7 & H8).
  exists K, s', q', M', (o, w). split; [exact H1|]. split; [auto|]. exists X1, X2. auto.
Qed.

(** The second pass needs no more than 32 bits if the first does not. *)
Lemma correlated_able : forall nobs n (R : list redge) bnd evs Y, ForallOrdPairs (fun e f => ~ parallel e f) (map fst R) ->
  (forall e, In e (map fst R) -> Z.even (s_weight e) = true) -> (forall e, In e (map fst R) -> (0 <= s_weight e)%Z) -> boundary_bare bnd (map fst R) ->
  (forall e, In e (map fst R) -> (s_weight e <= max_weight)%Z) -> solves (map fst R) (wanted bnd evs) Y -> wide_enough (map fst R) (s_total (select (map fst R) Y)) ->
  forall E' g', Forall2 lighter (map fst R) E' -> build nobs n E' = Ok g' -> able machine_ints (adj g') (neg_info_of nobs g' bnd) evs.
Proof.
  intros nobs n R bnd evs Y NP EV POS BN MW HY HT E' g' LL HB.
  apply (machine_signed_able nobs n E' g' bnd HB (lighter_np _ _ LL NP) (lighter_ev _ _ LL EV) (lighter_bare _ _ LL bnd BN)) with (Y := Y).
  - intros f Hf. destruct (lighter_in _ _ LL f Hf) as (e & He & Hl). pose proof (lighter_pos _ _ LL f Hf). specialize (MW e He). destruct e as [[[u x] w] o], f as [[[u' x'] w'] o']. destruct Hl as (_ & _ & _ & Hl & _). cbn [s_weight] in *. lia.
  - now apply (lighter_solves _ _ LL).
  - assert (Ng : negs E' = []).
    { pose proof (lighter_pos _ _ LL) as P. clear -P. unfold negs. induction E' as [|e E IH]; [reflexivity|]. cbn [filter]. pose proof (P e (or_introl eq_refl)). destruct (Z.ltb_spec (s_weight e) 0); [lia|]. apply IH. intros f Hf. apply P. now right. }
    rewrite Ng. cbn. rewrite Z.add_0_r. exact (lighter_wide _ _ LL Y HT).
Qed.

(** Edges of negative weight: the sum of the negative weights stays that of the graph as given. *)
Definition co_neg : list redge := [((0, None, 4%Z, [0]), [(1, None, 1%Z)]); ((1, None, (-10)%Z, [1]), [])].
Lemma negative_weight_wrong : exists R D s' q' M' o w, load 2 2 R = Ok D /\ ForallOrdPairs (fun e f => ~ parallel e f) (map fst R) /\
  (forall e, In e (map fst R) -> Z.even (s_weight e) = true) /\ (forall e, In e (map fst R) -> ~ negative_loop e) /\
  correlated_mask false (lt D) (lst D) 200 (fun _ => 0) (fun _ => 0) exact_ints (neg_info_of 2 (lg D) []) (sneg (lsg D)) (fun _ => 0) [0]
    (adj (lg D), []) (sadj (lsg D), []) init_state search_init (marks_of (lsg D)) = ((adj (lg D), []), (sadj (lsg D), []), Ok (s', q', M', (o, w))) /\
  (exists Y, solves (map fst R) (wanted [] [0]) Y) /\
  forall Y, solves (map fst R) (wanted [] [0]) Y -> s_total (select (map fst R) Y) <> w /\ forall X, s_total (select (lowered R X) Y) <> w.
Proof.
  exists co_neg. do 6 eexists. split; [vm_compute; reflexivity|]. split; [repeat constructor; simpl; intuition congruence|]. split; [intros e He; simpl in He; intuition; subst e; reflexivity|].
  split; [intros e He; simpl in He; intuition; subst e; simpl in *; intuition congruence|]. split; [vm_compute; reflexivity|].
  split; [exists [true; false]; split; [reflexivity|]; intros v; do 3 (destruct v as [|v]; [reflexivity|]); reflexivity|].
  intros Y [L H]. cbn [length map co_neg] in L. do 2 (destruct Y as [|? Y]; [discriminate|]). destruct Y; [|discriminate].
  pose proof (H 0) as H0. pose proof (H 1) as H1. clear H L. destruct b, b0; vm_compute in H0, H1; try discriminate.
  split; [discriminate|]. intros X. destruct X as [|[] [|[] X]]; discriminate.
Qed.
