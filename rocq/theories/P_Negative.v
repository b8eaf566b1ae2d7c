(** The matched detection events of graphs with negative weights. *)
From Coq Require Import Reals ZArith NArith List Bool Arith Lia Lra Sorted.
From Verif Require Import M_Base M_Core M_CoreHeap M_Failing M_Session S_Core S_Session S_CoreHeap M_Build S_Build P_Build P_Convert P_Convert2 P_UserCorr
  M_Flip S_Flip M_Search S_Search M_ToEdges S_ToEdges P_ToEdges P_ToEdges2 M_SearchHeap S_SearchHeap
  M_Discretise P_Discretise M_Merge P_Merge M_Pipeline M_PipelineHeap M_Bits S_Bits P_Bits M_UserGraph S_UserGraph P_UserGraph S_Pipeline S_PipelineHeap P_Pipeline P_Pipeline2 P_Pipeline3 P_PipelineHeap M_Matching S_Matching P_Matched P_Matching S_Negative.
From Verif Require T_Pipeline.
Import ListNotations.
Local Open Scope nat_scope.

(** ** A negative edge that the conversion does not drop leaves one behind *)
Definition holds_negative (t : table) (u : nat) : Prop := exists w o, t u = Some (w, o) /\ (w < 0)%Z.
Lemma keep_best_keeps : forall t u v w o, holds_negative t u -> holds_negative (keep_best t v w o) u.
Proof.
  intros t u v w o (w0 & o0 & E & L). unfold keep_best. destruct (t v) as [[w1 o1]|] eqn:Ev.
  - destruct (w <? w1)%Z eqn:C; [|exists w0, o0; auto]. unfold holds_negative, upd. destruct (Nat.eq_dec u v) as [->|N].
    + exists w, o. rewrite Nat.eqb_refl. rewrite Ev in E. injection E as -> ->. apply Z.ltb_lt in C. split; [reflexivity|lia].
    + exists w0, o0. rewrite (proj2 (Nat.eqb_neq _ _)) by auto. auto.
  - unfold holds_negative, upd. destruct (Nat.eq_dec u v) as [->|N]; [congruence|]. exists w0, o0. rewrite (proj2 (Nat.eqb_neq _ _)) by auto. auto.
Qed.
Lemma keep_best_takes : forall t u w o, (w < 0)%Z -> holds_negative (keep_best t u w o) u.
Proof.
  intros t u w o L. unfold keep_best. destruct (t u) as [[w1 o1]|] eqn:Ev.
  - destruct (w <? w1)%Z eqn:C; unfold holds_negative, upd.
    + exists w, o. rewrite Nat.eqb_refl. auto.
    + exists w1, o1. apply Z.ltb_ge in C. split; [exact Ev|lia].
  - exists w, o. unfold upd. rewrite Nat.eqb_refl. auto.
Qed.
Lemma convert_keeps : forall B es t u, holds_negative t u -> holds_negative (snd (convert B es t)) u.
Proof.
  induction es as [|e es IH]; intros t u H; cbn [convert]; [exact H|]. destruct (convert_edge B e) as [e'|v w o|].
  - specialize (IH t u H). destruct (convert B es t). exact IH.
  - apply IH. now apply keep_best_keeps.
  - now apply IH.
Qed.
Definition stays (B : nat -> bool) (e : sedge) (l : list sedge) (t : table) : Prop :=
  match convert_edge B e with Edge e' => In e' l | BoundaryEdge u _ _ => holds_negative t u | Dropped => True end.
Lemma convert_stays : forall B es t e, In e es -> (s_weight e < 0)%Z -> stays B e (fst (convert B es t)) (snd (convert B es t)).
Proof.
  induction es as [|a es IH]; intros t e He Hw; [destruct He|]. cbn [convert]. destruct He as [->|He].
  - unfold stays. destruct (convert_edge B e) as [e'|v w o|] eqn:C; [destruct (convert B es t); now left| |exact I].
    apply convert_keeps, keep_best_takes. destruct e as [[[u x] w1] o1]. cbn in Hw. unfold convert_edge in C.
    destruct (is_bnd_node B x && negb (B u)); [injection C as <- <- <-; exact Hw|]. destruct x as [y|]; [|discriminate]. destruct (B u && negb (B y)); [injection C as <- <- <-; exact Hw|]. destruct (negb (B u)); discriminate.
  - destruct (convert_edge B a) as [a'|v w o|].
    + specialize (IH t e He Hw). destruct (convert B es t). unfold stays in *. cbn [fst snd] in *. destruct (convert_edge B e); [now right|exact IH|exact I].
    + exact (IH _ e He Hw).
    + exact (IH _ e He Hw).
Qed.
Lemma convert_all_stays : forall n B es e, nodes_below n es -> In e es -> (s_weight e < 0)%Z -> convert_edge B e <> Dropped -> exists y, In y (convert_all n B es) /\ (s_weight y < 0)%Z.
Proof.
  intros n B es e RB He Hw ND. pose proof (convert_stays B es (fun _ => None) e He Hw) as H. unfold convert_all. destruct (convert B es (fun _ => None)) as [l t]. unfold stays in H. cbn [fst snd] in H.
  destruct e as [[[u x] w] o]. cbn in Hw. destruct (RB u x w o He) as [R1 R2]. unfold convert_edge in *.
  assert (T : forall v, v < n -> holds_negative t v -> exists y, In y (l ++ boundary_list n t) /\ (s_weight y < 0)%Z).
  { intros v Hv (w1 & o1 & E & L). exists (v, None, w1, o1). split; [|exact L]. apply in_or_app. right. apply in_flat_map. exists v. split; [apply in_seq; lia|]. rewrite E. now left. }
  destruct (is_bnd_node B x && negb (B u)); [now apply (T u)|]. destruct x as [y|]; [|congruence]. destruct (B u && negb (B y)); [now apply (T y)|]. destruct (negb (B u)); [|congruence].
  exists (u, Some y, w, o). split; [apply in_or_app; now left|exact Hw].
Qed.
Lemma negs_below : forall E, (s_total (negs E) <= 0)%Z.
Proof. unfold negs. induction E as [|e E IH]; cbn; [lia|]. destruct (s_weight e <? 0)%Z eqn:C; [|exact IH]. apply Z.ltb_lt in C. unfold s_total in *. cbn. lia. Qed.
Lemma negs_negative : forall E e, In e E -> (s_weight e < 0)%Z -> (s_total (negs E) < 0)%Z.
Proof.
  induction E as [|a E IH]; intros e He Hw; [destruct He|]. pose proof (negs_below E) as NB. unfold negs in *. cbn [filter]. destruct He as [->|He].
  - rewrite (proj2 (Z.ltb_lt _ _) Hw). unfold s_total in *. cbn. lia.
  - specialize (IH e He Hw). destruct (s_weight a <? 0)%Z eqn:C; [|exact IH]. apply Z.ltb_lt in C. unfold s_total in *. cbn. lia.
Qed.

(** ** The decoder of a graph with negative weights *)
Lemma discretised_negative : forall (g : ugraph RN) c e, normalising_constant (map weight (edges g)) = Ok c -> In e (edges g) ->
  ((integer_weights g /\ (weight e < 0)%R) \/ exists M, (forall f, In f (edges g) -> (Rabs (weight f) <= M)%R) /\ (weight e < - half_step M)%R) ->
  (s_weight (discretised_edge c e) < 0)%Z.
Proof.
  intros g c e HC He H. pose proof (c_pos g c HC) as Hc. assert (IN : incl [e] (edges g)) by (intros x [<-|[]]; exact He).
  assert (L : (IZR (s_total (map (discretised_edge c) [e])) / (2 * c) < 0)%R).
  { destruct H as [[HI Hw]|(M & HM & Hw)].
    - rewrite (weight_exact g c HC [e] IN HI). unfold total_weight. cbn. lra.
    - pose proof (weight_error g c HC [e] M IN HM) as E. apply Rabs_le_inv in E. change (total_weight [e]) with (weight e + 0)%R in E. change (INR (length [e])) with 1%R in E. lra. }
  set (z := s_weight (discretised_edge c e)). assert (Ez : s_total (map (discretised_edge c) [e]) = z) by (cbn [map]; unfold s_total; cbn [fold_right map]; fold z; lia).
  rewrite Ez in L. apply lt_IZR. apply (Rmult_lt_reg_r (/ (2 * c))); [apply Rinv_0_lt_compat; lra|]. unfold Rdiv in L. lra.
Qed.
Lemma negative_sum : forall (g : ugraph RN) d c sg, Inv g -> flags_ok RN g -> decoder_of g d c sg -> conversion_harmless g -> negative_weights g -> (neg_sum (d_neg d) < 0)%Z.
Proof.
  intros g d c sg INV FL DO [HARM _] (e & He & H). pose proof (discretised_negative g c e (do_c _ _ _ _ DO) He H) as Hw.
  assert (Hneg : (weight e < 0)%R).
  { destruct H as [[_ H]|(M & HM & H)]; [exact H|]. specialize (HM e He). pose proof (Rabs_pos (weight e)) as P. unfold half_step in H. change (IZR (2 * (2 ^ 24 - 1))) with 33554430%R in H. change (IZR (2 ^ 20)) with 1048576%R in H. lra. }
  destruct (build_built _ _ _ _ (do_mg _ _ _ _ DO)) as ((_ & _ & _ & _ & NT) & _).
  unfold d_neg, neg_info_of. cbn [neg_sum]. rewrite NT.
  destruct (convert_all_stays (num_nodes g) (fun v => is_boundary_node g (Some v)) (map (discretised_edge c) (edges g)) (discretised_edge c e)) as (y & Y1 & Y2).
  - exact (E_below g INV c).
  - now apply in_map.
  - exact Hw.
  - unfold discretised_edge, convert_edge. cbv iota beta. pose proof (HARM e He) as HD.
    assert (N : In (node1 e) (bnodes g) -> at_boundary g (node2 e) -> False) by (intros H1 H2; specialize (HD H1 H2); lra).
    destruct (is_boundary_node g (Some (node1 e))) eqn:B1; cbn [negb].
    + apply (bd_bnodes g FL) in B1. specialize (N B1). rewrite andb_false_r. destruct (node2 e) as [v|]; [|exfalso; now apply N]. cbn [at_boundary] in N.
      destruct (is_boundary_node g (Some v)) eqn:B2; [exfalso; apply N; now apply (bd_bnodes g FL)|]. cbn. discriminate.
    + cbn [negb]. rewrite andb_true_r. destruct (is_bnd_node _ (node2 e)) eqn:B2; [discriminate|]. destruct (node2 e); [cbn; discriminate|discriminate B2].
  - exact (negs_negative _ y Y1 Y2).
Qed.

(** ** Calls *)
Lemma negative_raises : forall m g evs give, fits m g -> usable g -> negative_weights g -> exists m', (forall fuel, pairs_call fuel cyclic_ints m evs give = Ok (m', Raised)) /\ fits m' g.
Proof.
  intros m g evs give FT (IDS & SC & HARM) NW. destruct (get_ok m g FT IDS SC) as (m' & d & r & k & c & sg & G1 & G2 & G3 & G4). exists m'. split; [|exact G2].
  intros fuel. unfold pairs_call. rewrite G1. cbn [unless_thrown]. unfold match_edges_h.
  pose proof (negative_sum (at_nobs g k) d c sg (f_inv _ _ FT) (f_flags _ _ FT) (sv_of _ _ _ _ _ G3) HARM NW) as L.
  rewrite (proj2 (Z.eqb_neq _ _)) by lia. reflexivity.
Qed.
(** Weights that are taken for zero. *)
Lemma small_kept : forall (g : ugraph RN) c, normalising_constant (map weight (edges g)) = Ok c -> small_negatives g -> forall e, In e (edges g) -> (0 <= discretise c (weight e))%Z.
Proof.
  intros g c HC SN e He. destruct (SN e He) as (f & Hf & L). pose proof (in_map (fun e : uedge RN => weight e) _ _ He) as Ie. pose proof (in_map (fun e : uedge RN => weight e) _ _ Hf) as If.
  destruct (product_bound _ c _ HC If) as [PB Pc]. destruct (discretise_spec _ c HC _ Ie) as (EV & _ & ER & _). cbv beta in *.
  apply Rabs_le_inv in ER. rewrite Rabs_mult, (Rabs_pos_eq c) in PB by lra. change (IZR (2 ^ 29)) with 536870912%R in ER. change (IZR (2 ^ 25)) with 33554432%R in L.
  assert (LC : (- (Rabs (weight f) * c / 33554432) <= weight e * c)%R).
  { replace (- (Rabs (weight f) * c / 33554432))%R with (- (Rabs (weight f) / 33554432) * c)%R by field. apply Rmult_le_compat_r; lra. }
  assert (LZ : (-2 < discretise c (weight e))%Z) by (apply lt_IZR; lra). apply Z.even_spec in EV as [k Ek]. lia.
Qed.
Lemma not_both : forall (g : ugraph RN), scalable g -> (forall e, In e (edges g) -> w_exceeds RN (weight e) = false) -> negative_weights g -> small_negatives g -> False.
Proof.
  intros g SC WR (e & He & H) SN. destruct (constant_exists g WR SC) as (c & HC). pose proof (discretised_negative g c e HC He H) as L. pose proof (small_kept g c HC SN e He) as L2. change (s_weight (discretised_edge c e)) with (discretise c (weight e)) in L. lia.
Qed.
Lemma step_signed : forall m g c, fits m g -> fair_signed g c ->
  exists K m' r, (forall fuel, K <= fuel -> mstep fuel cyclic_ints m c = Ok (m', r)) /\ right_signed g c r /\ fits m' (after g c).
Proof.
  intros m g c FT HF.
  assert (X : ~ asks_pairs c -> fair g c -> exists K m' r, (forall fuel, K <= fuel -> mstep fuel cyclic_ints m c = Ok (m', r)) /\ right_signed g c r /\ fits m' (after g c)).
  { intros NA F. destruct (step_ok m g c FT F) as (K & m' & r & A1 & A2 & A3). exists K, m', r. split; [exact A1|]. split; [|exact A3]. split; [contradiction|auto]. }
  destruct (f_graph _ _ FT) as [b Eg]. assert (EV : forall z, events_in (m_graph m) z = events_in g z) by (intros z; now rewrite Eg).
  destruct c as [x|z|ps pp z|z|z|z]; try (apply X; [exact (fun H => H)|exact HF]); clear X; cbn [mstep after fair_signed] in *; unfold right_signed; cbn [asks_pairs right].
  - destruct (accepted_dec g z) as [HA|HA]; [|exists 0, m, Raised; split; [intros f _; rewrite EV, (events_in_no g z HA); reflexivity|split; [split; [reflexivity|intros _; split; [contradiction|split; reflexivity]]|exact FT]]].
    destruct (HF HA) as (U & H). destruct (events_in_ok g z HA) as (evs & Ev & ND & HE). rewrite EV, Ev. destruct H as [NW|[SN AS]].
    + destruct (negative_raises m g evs PairList FT U NW) as (m' & B1 & B2). exists 0, m', Raised. split; [auto|]. split; [|exact B2]. split; [auto|]. intros SN. destruct (not_both g (proj1 (proj2 U)) (f_weights _ _ FT) NW (SN I)).
    + destruct (pairs_small m g z PairList FT HA U (fun c HC => small_kept g c HC SN) AS evs ND HE) as (K & m' & x & D1 & D2 & D3).
      exists K, m', (match x with Some out => PairList out | None => Raised end). split; [exact D1|]. split; [|exact D2]. split; [intros _ NW; destruct (not_both g (proj1 (proj2 U)) (f_weights _ _ FT) NW SN)|intros _].
      destruct x as [out|]; [destruct D3 as [D3 D4]; split; [intros _ _; exists out; auto|split; contradiction]|split; [contradiction|split; reflexivity]].
  - destruct (accepted_dec g z) as [HA|HA]; [|exists 0, m, Raised; split; [intros f _; rewrite EV, (events_in_no g z HA); reflexivity|split; [split; [reflexivity|intros _; split; [contradiction|split; reflexivity]]|exact FT]]].
    destruct (HF HA) as (U & H). destruct (events_in_ok g z HA) as (evs & Ev & ND & HE). rewrite EV, Ev. destruct H as [NW|[SN AS]].
    + destruct (negative_raises m g evs (fun p => PairDict (dict_of p)) FT U NW) as (m' & B1 & B2). exists 0, m', Raised. split; [auto|]. split; [|exact B2]. split; [auto|]. intros SN. destruct (not_both g (proj1 (proj2 U)) (f_weights _ _ FT) NW (SN I)).
    + destruct (pairs_small m g z (fun p => PairDict (dict_of p)) FT HA U (fun c HC => small_kept g c HC SN) AS evs ND HE) as (K & m' & x & D1 & D2 & D3).
      exists K, m', (match x with Some out => PairDict (dict_of out) | None => Raised end). split; [exact D1|]. split; [|exact D2]. split; [intros _ NW; destruct (not_both g (proj1 (proj2 U)) (f_weights _ _ FT) NW SN)|intros _].
      destruct x as [out|]; [destruct D3 as [D3 D4]; split; [intros _ _|split; contradiction]|split; [contradiction|split; reflexivity]]. exists (dict_of out). split; [reflexivity|]. exists out. split; [exact D3|]. apply dict_of_spec. exact (proj1 D3).
Qed.
Lemma run_signed : forall cs m g, fits m g -> always fair_signed g cs -> exists K m' rs, (forall fuel, K <= fuel -> mrun fuel cyclic_ints m cs = Ok (m', rs)) /\ each right_signed g cs rs.
Proof.
  induction cs as [|c cs IH]; intros m g FT HF; [exists 0, m, []; split; [reflexivity|exact I]|]. destruct HF as [H1 H2].
  destruct (step_signed m g c FT H1) as (K1 & m1 & r & A1 & A2 & A3). destruct (IH m1 (after g c) A3 H2) as (K2 & m2 & rs & B1 & B2).
  exists (Nat.max K1 K2), m2, (r :: rs). split; [|split; assumption]. intros f Hf. cbn [mrun]. rewrite A1 by lia. cbn [bindO fst snd]. rewrite B1 by lia. reflexivity.
Qed.
Lemma session_signed : forall n k cs, always fair_signed (new_graph RN n k) cs ->
  exists K m' rs, (forall fuel, K <= fuel -> mrun fuel cyclic_ints (new_matching (new_graph RN n k)) cs = Ok (m', rs)) /\ each right_signed (new_graph RN n k) cs rs.
Proof. intros n k cs. apply run_signed. apply new_fits; [apply new_inv|apply flags_new|intros e []]. Qed.

(** ** A minute negative weight *)
Definition tiny : R := (- / 1099511627776)%R.
Definition tiny_e : uedge RN := @mkE RN 0 (Some 1) [0] tiny (-1)%R.
Definition tiny_f : uedge RN := @mkE RN 0 None [1] (3 / 2)%R (-1)%R.
Definition tiny_calls : list mcall := [Modify (@OpAdd RN 0 (Some 1) [0] tiny (-1)%R DISALLOW); Modify (@OpAdd RN 0 None [1] (3 / 2)%R (-1)%R DISALLOW)].
Lemma tiny_graph : let g := fold_left after tiny_calls (new_graph RN 0 0) in edges g = [tiny_e; tiny_f] /\ bnodes g = [] /\ num_nodes g = 2 /\ nobs g = 2.
Proof. unfold tiny_calls. cbn [fold_left after apply_op]. unfold py_add. rewrite (T_Pipeline.fits tiny), (T_Pipeline.fits (3 / 2)) by (unfold tiny; lra). repeat split; reflexivity. Qed.
Lemma tiny_fair : always fair_signed (new_graph RN 0 0) (tiny_calls ++ [AskPairs (Syn1 [0; 0]%Z)]).
Proof.
  pose proof tiny_graph as P. unfold tiny_calls in *. cbn [app always fair_signed fair fold_left] in *. set (g := after (after _ _) _) in *. clearbody g. destruct P as (P1 & P2 & P3 & P4). split; [exact I|]. split; [exact I|]. split; [|exact I]. intros _.
  assert (W : forall e, In e (edges g) -> e = tiny_e \/ e = tiny_f) by (rewrite P1; intros e [<-|[<-|[]]]; auto).
  split; [split; [|split]|right; split].
  - intros e o He. rewrite P4. destruct (W e He) as [-> | ->]; cbn; lia.
  - apply (scalable_some g tiny_f); [rewrite P1; cbn; tauto|]. cbn. rewrite Rabs_right; lra.
  - split.
    + intros e He. rewrite P2. intros [].
    + intros e f u He Hf N H1 H2. exfalso. rewrite P1 in *. unfold boundary_edge_of, at_boundary in *. rewrite P2 in *.
      destruct He as [<-|[<-|[]]]; [destruct H1 as [_ [[_ []]|[_ []]]]|]. destruct Hf as [<-|[<-|[]]]; [destruct H2 as [_ [[_ []]|[_ []]]]|congruence].
  - intros e He. exists tiny_f. split; [rewrite P1; cbn; tauto|]. change (IZR (2 ^ 25)) with 33554432%R. cbn [tiny_f weight]. rewrite Rabs_right by lra. destruct (W e He) as [-> | ->]; cbn [weight tiny_e tiny_f]; unfold tiny; lra.
  - left. exists [], []. split; [intros [|[|[|v]]]; cbn; split; try (intros []); congruence|]. split.
    + split; [constructor|]. split; [intros ? []|]. intros v _. cbn. split; [discriminate|intros []].
    + left. exists [tiny_e]. split; [|left; cbn; lia]. intros e He Hw. destruct (W e He) as [-> | ->]; [now left|]. cbn in Hw. lra.
Qed.
Lemma tiny_reply : exists K m' rs out, let cs := tiny_calls ++ [AskPairs (Syn1 [0; 0]%Z)] in
  (forall fuel, K <= fuel -> mrun fuel cyclic_ints (new_matching (new_graph RN 0 0)) cs = Ok (m', rs ++ [PairList out])).
Proof.
  destruct (session_signed 0 0 _ tiny_fair) as (K & m' & rs & R1 & AR). pose proof tiny_graph as P. cbv zeta in P. unfold tiny_calls in *. cbn [app each fold_left] in AR, P. 
  destruct rs as [|r1 [|r2 [|r3 [|]]]]; try (exfalso; tauto). destruct AR as (_ & _ & [_ AR] & _). set (g := after (after _ _) _) in *. destruct P as (P1 & P2 & P3 & P4).
  assert (SN : small_negatives g).
  { intros e He. exists tiny_f. split; [rewrite P1; cbn; tauto|]. change (IZR (2 ^ 25)) with 33554432%R. cbn [tiny_f weight]. rewrite Rabs_right by lra. rewrite P1 in He. destruct He as [<-|[<-|[]]]; cbn [weight tiny_e tiny_f]; unfold tiny; lra. }
  destruct (AR (fun _ => SN)) as (H & _). destruct H as (out & -> & _).
  - cbn [accepted length]. unfold num_detectors. rewrite P2, P3. cbn. lia.
  - exists [], []. split; [intros [|[|[|v]]]; cbn; split; try (intros []); congruence|]. split; [constructor|]. split; [intros ? []|]. intros v _. cbn. split; [discriminate|intros []].
  - exists K, m', [r1; r2], out. exact R1.
Qed.
Lemma tiny_kept : exists n k cs z e K m' rs out, let g := fold_left after cs (new_graph RN n k) in
  usable g /\ In e (edges g) /\ (weight e < 0)%R /\
  (forall fuel, K <= fuel -> mrun fuel cyclic_ints (new_matching (new_graph RN n k)) (cs ++ [AskPairs z]) = Ok (m', rs ++ [PairList out])).
Proof.
  destruct tiny_reply as (K & m' & rs & out & H). exists 0, 0, tiny_calls, (Syn1 [0; 0]%Z), tiny_e, K, m', rs, out. pose proof tiny_graph as P. pose proof tiny_fair as F. cbv zeta in *.
  assert (A : accepted (fold_left after tiny_calls (new_graph RN 0 0)) (Syn1 [0; 0]%Z)) by (destruct P as (_ & P2 & P3 & _); cbn [accepted length]; unfold num_detectors; rewrite P2, P3; cbn; lia).
  unfold tiny_calls in F. cbn [app always fair_signed] in F. destruct F as (_ & _ & F & _). destruct (F A) as [U _]. split; [exact U|]. split; [rewrite (proj1 P); now left|]. split; [cbn; unfold tiny; lra|exact H].
Qed.
