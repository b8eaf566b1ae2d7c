(** Calls on a Matching object with rules, in any order. *)
From Coq Require Import Reals ZArith NArith List Bool Arith Lia.
From Verif Require Import M_Base M_Core M_CoreHeap M_Build M_Pipeline M_PipelineHeap M_Bits S_Bits P_Bits M_Merge M_UserGraph M_Matching S_Matching P_Matching M_CorrDecode P_CorrDecode S_CorrDecode.
Import ListNotations.
Local Open Scope nat_scope.

Section Session.
Variables (G : cgraph) (nd no : nat).
Hypothesis ND : num_nodes (c_graph G) = nd.
Hypothesis NO : M_UserGraph.nobs (c_graph G) = no.
Hypothesis BN : M_UserGraph.bnodes (c_graph G) = [].
Definition sized_ok (D : cdecoder) : Prop := length (adj (d_graph (cd_dec D))) = search_size (cd_dec D).
Variable made : cdecoder -> Prop.
Hypothesis BM : forall ens, exists D, build_correlated G ens = Ok D /\ made D /\ (ens = true -> sized_ok D).
Hypothesis FR : forall D, made D -> resting D (fresh D).
(** What is right. *)
Variables (Able Hopeless : (nat -> Prop) -> Prop) (Good : bool -> (nat -> Prop) -> list Z -> R -> Prop) (Listed : bool -> (nat -> Prop) -> list (nat * option nat) -> Prop).
Hypothesis DEC : forall D x evs P cor, made D -> resting D x -> NoDup evs -> (forall v, In v evs <-> P v) -> Able P -> (cor = true -> sized_ok D) ->
  exists K x' row w, (forall fuel, K <= fuel -> correlated_decode_h fuel cyclic_ints cor D x evs = Ok (x', (row, w))) /\ resting D x' /\ length row = no /\ Good cor P (map Z.b2z row) w.
Hypothesis EDG : forall D x evs P cor, made D -> resting D x -> NoDup evs -> (forall v, In v evs <-> P v) -> Able P -> sized_ok D ->
  exists K x' out, (forall fuel, K <= fuel -> correlated_to_edges_h fuel cyclic_ints cor D x evs = Ok (x', out)) /\ resting D x' /\ Listed cor P out.
Variables (Asked Solved : (nat -> Prop) -> Prop).
(** What is asked can be done, or cannot. *)
Hypothesis CASES : forall P, Asked P -> (Able P /\ Solved P) \/ (Hopeless P /\ ~ Solved P).
Hypothesis FAIL : forall D x evs P, made D -> resting D x -> NoDup evs -> (forall v, In v evs <-> P v) -> Hopeless P -> exists K x', resting D x' /\ forall fuel, K <= fuel ->
  (correlated_decode_h fuel cyclic_ints false D x evs = Throw /\ decode_left fuel cyclic_ints false D x evs = Ok x') /\
  (sized_ok D ->
    (forall X (second : decoder -> running -> outcome (running * X)), two_pass_h fuel cyclic_ints D x evs second = Throw) /\ two_pass_left fuel cyclic_ints D x evs = Ok x' /\
    correlated_to_edges_h fuel cyclic_ints false D x evs = Throw /\ edges_left fuel cyclic_ints false D x evs = Ok x').

Definition shot_good (cor ps pp : bool) (shot : list Z) (y : list Z * R) : Prop :=
  exists row, Good cor (shot_event ps shot) row (snd y) /\ if pp then length (fst y) = packed_len no /\ bytes_ok (fst y) /\ packs (fst y) row else fst y = row.
Definition fair_call (c : ccall) : Prop :=
  match c with
  | DecodeOne _ z | DecodeEdges _ z => one_syndrome nd z -> Asked (event_at z)
  | DecodeBatch _ packed _ z => syndromes nd packed z -> match z with Syn2 _ shots => Forall (fun shot => Asked (shot_event packed shot)) shots | _ => True end
  end.
Definition replied_c (z : syndrome) (r : mreply) (right : Prop) : Prop :=
  (one_syndrome nd z -> Solved (event_at z) -> right) /\ (one_syndrome nd z -> ~ Solved (event_at z) -> r = Raised) /\ (~ one_syndrome nd z -> r = Raised).
Definition good_reply (c : ccall) (r : mreply) : Prop :=
  match c with
  | DecodeOne cor z => replied_c z r (exists row w, r = Row row w /\ Good cor (event_at z) row w)
  | DecodeBatch cor ps pp z =>
      (syndromes nd ps z ->
        match z with
        | Syn2 _ shots =>
            (Forall (fun shot => Solved (shot_event ps shot)) shots -> exists l, r = Rows l /\ Forall2 (shot_good cor ps pp) shots l) /\
            (Exists (fun shot => ~ Solved (shot_event ps shot)) shots -> r = Raised)
        | _ => True
        end) /\
      (~ syndromes nd ps z -> r = Raised)
  | DecodeEdges cor z => replied_c z r (exists out, r = EdgeList out /\ Listed cor (event_at z) out)
  end.

Record fits_c (m : cmatching) : Prop := {
  fc_graph : cm_graph m = G;
  fc_dec : cm_needs m = false -> forall D x, cm_mwpm m = Some (D, x) -> made D /\ resting D x }.
Lemma make_c : forall ens, exists m' D x, cmake G ens = Ok (m', D, x) /\ fits_c m' /\ made D /\ resting D x /\ (ens = true -> sized_ok D).
Proof.
  intros ens. destruct (BM ens) as (D & E & MD & SZ). unfold cmake. rewrite E. cbn [bindO]. exists (mkCM G false (Some (D, fresh D))), D, (fresh D). split; [reflexivity|]. split; [|auto].
  split; [reflexivity|]. cbn [cm_mwpm]. intros _ D' x' E'. injection E' as <- <-. auto.
Qed.
Lemma get_c : forall (cor : bool) m, fits_c m -> exists m' D x, cget_for cor m = Ok (m', D, x) /\ fits_c m' /\ made D /\ resting D x /\ (cor = true -> sized_ok D).
Proof.
  intros cor m FT. destruct (make_c cor) as (m' & D & x & MC). rewrite <- (fc_graph _ FT) in MC. unfold cget_for, cget_with_search, cget. destruct cor.
  - destruct (cm_needs m) eqn:En; [eauto|]. destruct (cm_mwpm m) as [[D0 x0]|] eqn:Em; [|eauto]. destruct (Nat.eqb_spec (length (adj (d_graph (cd_dec D0)))) (search_size (cd_dec D0))) as [SZ|]; [|eauto].
    destruct (fc_dec _ FT En D0 x0 Em). exists m, D0, x0. auto.
  - destruct (cm_needs m) eqn:En; [eauto|]. destruct (cm_mwpm m) as [[D0 x0]|] eqn:Em; [|eauto].
    destruct (fc_dec _ FT En D0 x0 Em). exists m, D0, x0. split; [reflexivity|]. repeat (split; [assumption|]). discriminate.
Qed.
Lemma fits_ckeep : forall m D x, fits_c m -> made D -> resting D x -> fits_c (ckeep m D x).
Proof. intros m D x [F1 F2] MD RS. split; [exact F1|]. cbn [ckeep cm_mwpm]. intros _ D' x' E. injection E as <- <-. auto. Qed.
Lemma into_c : forall D x evs P cor, made D -> resting D x -> NoDup evs -> (forall v, In v evs <-> P v) -> Able P -> (cor = true -> sized_ok D) ->
  exists K x' row w, (forall fuel, K <= fuel -> correlated_into fuel cyclic_ints cor D x evs (repeat 0%Z no) = Ok (x', row, w)) /\ resting D x' /\ length row = no /\ (forall p, In p row -> is_bit p) /\ Good cor P row w.
Proof.
  intros D x evs P cor MD RS NE HE AB SZ. destruct (DEC D x evs P cor MD RS NE HE AB SZ) as (K & x' & row & w & H1 & H2 & H3 & H4). exists K, x', (map Z.b2z row), w. split; [|split; [exact H2|split; [now rewrite map_length|split; [|exact H4]]]].
  - intros f Hf. unfold correlated_into. rewrite H1 by exact Hf. cbn [bindO fst snd]. rewrite xor_zero by lia. rewrite H3, Nat.sub_diag. cbn [repeat]. rewrite app_nil_r. reflexivity.
  - intros p Hp. apply in_map_iff in Hp as (b & <- & _). destruct b; [now right|now left].
Qed.
Lemma stuck_c : forall D x evs P (cor : bool), made D -> resting D x -> NoDup evs -> (forall v, In v evs <-> P v) -> Hopeless P -> (cor = true -> sized_ok D) ->
  exists K x', resting D x' /\ forall fuel, K <= fuel -> (forall buf, correlated_into fuel cyclic_ints cor D x evs buf = Throw) /\ decode_left fuel cyclic_ints cor D x evs = Ok x'.
Proof.
  intros D x evs P cor MD RS NE HE HP SZ. destruct (FAIL D x evs P MD RS NE HE HP) as (K & x' & H1 & H2). exists K, x'. split; [exact H1|]. intros f Hf. destruct (H2 f Hf) as [[H3 H4] H5]. unfold correlated_into. destruct cor.
  - destruct (H5 (SZ eq_refl)) as (H6 & H7 & _). split; [|exact H7]. intros buf. unfold correlated_decode_h. rewrite H6. reflexivity.
  - rewrite H3. split; [reflexivity|exact H4].
Qed.
Lemma stuck_edges_c : forall D x evs P (cor : bool), made D -> resting D x -> NoDup evs -> (forall v, In v evs <-> P v) -> Hopeless P -> sized_ok D ->
  exists K x', resting D x' /\ forall fuel, K <= fuel -> correlated_to_edges_h fuel cyclic_ints cor D x evs = Throw /\ edges_left fuel cyclic_ints cor D x evs = Ok x'.
Proof.
  intros D x evs P cor MD RS NE HE HP SZ. destruct (FAIL D x evs P MD RS NE HE HP) as (K & x' & H1 & H2). exists K, x'. split; [exact H1|]. intros f Hf. destruct (H2 f Hf) as [_ H5]. destruct (H5 SZ) as (H6 & H7 & H8 & H9). destruct cor; [|auto].
  split; [unfold correlated_to_edges_h; now rewrite H6|exact H7].
Qed.
Definition batch_good_c (cor ps pp : bool) (shots : list (list Z)) (y : option (list (list Z * R))) : Prop :=
  match y with
  | Some l => Forall2 (shot_good cor ps pp) shots l /\ Forall (fun shot => Solved (shot_event ps shot)) shots
  | None => Exists (fun shot => ~ Solved (shot_event ps shot)) shots
  end.
Lemma batch_c : forall D cor ps pp, made D -> (cor = true -> sized_ok D) -> forall shots x, resting D x -> Forall (fun shot => Asked (shot_event ps shot)) shots ->
  exists K x' y, resting D x' /\ batch_good_c cor ps pp shots y /\ forall fuel, K <= fuel ->
    match y with
    | Some l => decode_batch crunning (correlated_into fuel cyclic_ints cor D) no ps pp x shots = Ok (x', l)
    | None => decode_batch crunning (correlated_into fuel cyclic_ints cor D) no ps pp x shots = Throw /\ correlated_batch_left fuel cyclic_ints cor D no ps pp x shots = Ok x'
    end.
Proof.
  intros D cor ps pp MD SZ shots. induction shots as [|shot shots IH]; intros r RD HX.
  - exists 0, r, (Some []). split; [exact RD|]. split; [split; constructor|reflexivity].
  - destruct (shot_events_ok ps shot) as [NE HE]. destruct (CASES _ (Forall_inv HX)) as [[AB SV]|[HP NS]].
    + destruct (into_c D r _ _ cor MD RD NE HE AB SZ) as (K1 & r1 & row & w & D1 & D2 & L1 & L2 & D3).
      destruct (IH r1 D2 (Forall_inv_tail HX)) as (K2 & r2 & y & E2 & E3 & E1).
      assert (Y : exists row', (forall fuel, K1 <= fuel -> decode_one crunning (correlated_into fuel cyclic_ints cor D) no ps pp r shot = Ok (r1, row', w)) /\ shot_good cor ps pp shot (row', w)).
      { unfold decode_one. destruct pp.
        - destruct (pack_ok row L2) as (row' & P1 & P2 & P3 & P4). rewrite L1 in P1, P2. exists row'. split.
          + intros f Hf. rewrite D1 by exact Hf. cbn [bindO]. rewrite P1. reflexivity.
          + exists row. cbn [fst snd]. auto.
        - exists row. split; [exact D1|]. exists row. cbn [fst snd]. auto. }
      destruct Y as (row' & Y1 & Y2). exists (Nat.max K1 K2), r2, (option_map (cons (row', w)) y). split; [exact E2|]. split.
      * destruct y as [l|]; cbn [option_map batch_good_c] in *; [destruct E3; split; constructor; assumption|now apply Exists_cons_tl].
      * intros f Hf. specialize (E1 f ltac:(lia)). specialize (Y1 f ltac:(lia)). cbn [decode_batch correlated_batch_left]. rewrite Y1. cbn [bindO]. destruct y as [l|]; cbn [option_map]; [rewrite E1; reflexivity|].
        destruct E1 as [E1 E4]. rewrite E1. split; [reflexivity|exact E4].
    + destruct (stuck_c D r _ _ cor MD RD NE HE HP SZ) as (K & r' & D2 & D1). exists K, r', None. split; [exact D2|]. split; [now apply Exists_cons_hd|].
      intros f Hf. destruct (D1 f Hf) as [D3 D4]. cbn [decode_batch correlated_batch_left].
      assert (Y : decode_one crunning (correlated_into f cyclic_ints cor D) no ps pp r shot = Throw) by (unfold decode_one; rewrite D3; destruct pp; reflexivity).
      rewrite Y. split; [reflexivity|exact D4].
Qed.
Lemma accepted_c : forall z, accepted (c_graph G) z <-> one_syndrome nd z.
Proof.
  intros z. unfold accepted, one_syndrome, num_detectors. rewrite BN, ND. cbn [length]. rewrite Nat.sub_0_r. destruct z as [l|nc rows|]; [lia|tauto|tauto].
Qed.
Lemma accepted_batch_c : forall ps z, accepted_batch (c_graph G) ps z <-> syndromes nd ps z.
Proof.
  intros ps z. unfold accepted_batch, syndromes, num_detectors. rewrite BN, ND. cbn [length]. rewrite Nat.sub_0_r, ?Nat.add_0_r. destruct z as [l|nc rows|]; [tauto| |tauto]. destruct ps; lia.
Qed.
Lemma step_c : forall m c, fits_c m -> fair_call c -> exists K m' r, (forall fuel, K <= fuel -> corr_step fuel cyclic_ints m c = Ok (m', r)) /\ good_reply c r /\ fits_c m'.
Proof.
  intros m c FT HF. pose proof (fc_graph _ FT) as EG. unfold corr_step. rewrite EG, NO. destruct c as [cor z|cor ps pp z|cor z]; cbn [fair_call good_reply] in *.
  - destruct (accepted_dec (c_graph G) z) as [HA|HA]; pose proof HA as HO; rewrite accepted_c in HO.
    + destruct (events_in_ok _ z HA) as (evs & Ev & NE & HE). destruct (get_c cor m FT) as (m' & D & x & G1 & G2 & G3 & G4 & G5). destruct (CASES _ (HF HO)) as [[AB SV]|[HP NS]].
      * destruct (into_c D x evs _ cor G3 G4 NE HE AB G5) as (K & x' & row & w & D1 & D2 & _ & _ & D3). exists K, (ckeep m' D x'), (Row row w). split; [|split; [split; [intros _ _; exists row, w; auto|split; contradiction]|now apply fits_ckeep]].
        intros f Hf. rewrite Ev, G1. cbn [unless_thrown]. rewrite D1 by exact Hf. reflexivity.
      * destruct (stuck_c D x evs _ cor G3 G4 NE HE HP G5) as (K & x' & D2 & D1). exists K, (ckeep m' D x'), Raised. split; [|split; [split; [contradiction|split; reflexivity]|now apply fits_ckeep]].
        intros f Hf. destruct (D1 f Hf) as [D3 D4]. rewrite Ev, G1. cbn [unless_thrown]. rewrite D3. cbn [unless_thrown]. rewrite D4. reflexivity.
    + exists 0, m, Raised. split; [intros f _; rewrite (events_in_no _ z HA); reflexivity|]. split; [split; [contradiction|split; [contradiction|reflexivity]]|exact FT].
  - destruct (accepted_batch_dec (c_graph G) ps z) as [HA|HA]; pose proof HA as HO; rewrite accepted_batch_c in HO.
    + destruct z as [l|nc shots|]; [destruct HA| |destruct HA]. destruct (get_c cor m FT) as (m' & D & x & G1 & G2 & G3 & G4 & G5).
      destruct (batch_c D cor ps pp G3 G5 shots x G4 (HF HO)) as (K & x' & y & D2 & D3 & D1). exists K, (ckeep m' D x'), (match y with Some l => Rows l | None => Raised end). split; [|split; [split; [intros _|contradiction]|now apply fits_ckeep]].
      * intros f Hf. specialize (D1 f Hf). rewrite (proj1 (batch_ok_iff _ ps nc shots) HA), G1. cbn [unless_thrown]. destruct y as [l|]; [rewrite D1; reflexivity|]. destruct D1 as [D1 D4]. rewrite D1. cbn [unless_thrown]. rewrite D4. reflexivity.
      * destruct y as [l|]; cbn [batch_good_c] in D3.
        -- destruct D3 as [D3 D4]. split; [intros _; exists l; auto|]. intros EX. apply Exists_exists in EX as (shot & Hs & NS). elim NS. exact (proj1 (Forall_forall _ _) D4 shot Hs).
        -- split; [|reflexivity]. intros FA. apply Exists_exists in D3 as (shot & Hs & NS). elim NS. exact (proj1 (Forall_forall _ _) FA shot Hs).
    + exists 0, m, Raised. split; [|split; [split; [contradiction|reflexivity]|exact FT]]. intros f _. destruct z as [l|nc shots|]; [reflexivity| |reflexivity].
      rewrite batch_ok_iff in HA. now rewrite (not_true_is_false _ HA).
  - destruct (accepted_dec (c_graph G) z) as [HA|HA]; pose proof HA as HO; rewrite accepted_c in HO.
    + destruct (events_in_ok _ z HA) as (evs & Ev & NE & HE). destruct (get_c true m FT) as (m' & D & x & G1 & G2 & G3 & G4 & G5). cbn [cget_for] in G1. destruct (CASES _ (HF HO)) as [[AB SV]|[HP NS]].
      * destruct (EDG D x evs _ cor G3 G4 NE HE AB (G5 eq_refl)) as (K & x' & out & D1 & D2 & D3). exists K, (ckeep m' D x'), (EdgeList out). split; [|split; [split; [intros _ _; exists out; auto|split; contradiction]|now apply fits_ckeep]].
        intros f Hf. rewrite Ev, G1. cbn [unless_thrown]. rewrite D1 by exact Hf. reflexivity.
      * destruct (stuck_edges_c D x evs _ cor G3 G4 NE HE HP (G5 eq_refl)) as (K & x' & D2 & D1). exists K, (ckeep m' D x'), Raised. split; [|split; [split; [contradiction|split; reflexivity]|now apply fits_ckeep]].
        intros f Hf. destruct (D1 f Hf) as [D3 D4]. rewrite Ev, G1. cbn [unless_thrown]. rewrite D3. cbn [unless_thrown]. rewrite D4. reflexivity.
    + exists 0, m, Raised. split; [intros f _; rewrite (events_in_no _ z HA); reflexivity|]. split; [split; [contradiction|split; [contradiction|reflexivity]]|exact FT].
Qed.
Lemma run_c : forall cs m, fits_c m -> Forall fair_call cs -> exists K m' rs, (forall fuel, K <= fuel -> corr_run fuel cyclic_ints m cs = Ok (m', rs)) /\ Forall2 good_reply cs rs.
Proof.
  induction cs as [|c cs IH]; intros m FT HF; [exists 0, m, []; split; [reflexivity|constructor]|].
  destruct (step_c m c FT (Forall_inv HF)) as (K1 & m1 & r & A1 & A2 & A3). destruct (IH m1 A3 (Forall_inv_tail HF)) as (K2 & m2 & rs & B1 & B2).
  exists (Nat.max K1 K2), m2, (r :: rs). split; [|constructor; assumption]. intros f Hf. cbn [corr_run]. rewrite A1 by lia. cbn [bindO fst snd]. rewrite B1 by lia. reflexivity.
Qed.
Lemma new_fits_c : fits_c (new_cmatching G).
Proof. split; [reflexivity|]. discriminate. Qed.
End Session.
