(** C55: decoding with a detector error model finds a most likely explanation.

    A detector error model is a list of error mechanisms, each with a probability, detectors and observables.  A Matching object made from it is
    given the detection events of one shot.  The predicted observables are those flipped by a set of mechanisms that explains the events, and
    no other set that explains them is more likely, up to the rounding of weights.  The components of one instruction count as mechanisms of
    their own, as in the code; mechanisms on the same detectors cannot be told apart, and count together.  Merging and logarithms are in
    exact real numbers, the discretisation and the reported weight in binary64; the decoder runs on radix heaps and 32-bit times. *)
From Coq Require Import Reals ZArith List Bool Arith Lia Lra.
From Verif Require Import S_Spread P_Spread M_Base M_Core M_CoreHeap M_Bits M_Merge S_Merge M_Dem S_Dem P_Dem M_Matching S_Matching M_UserGraph S_UserGraph S_Pipeline S_DemDecode P_Matching P_DemDecode.
Import ListNotations.
Local Open Scope R_scope.

Theorem C55_most_likely : forall nd no M dem z X, let ms := mechanisms RD dem in let g := load_dem RD nd no dem in
  sound_model nd no M dem -> accepted g z -> explains_events ms (event_at z) X ->
  little ms X ->
  exists K m' row w, (forall fuel, (K <= fuel)%nat -> mstep fuel cyclic_ints (new_matching g) (AskDecode z) = Ok (m', Row row w)) /\
    most_likely ms no M (event_at z) row w.
Proof. exact (fun nd no M dem z X H => decode_most_likely nd no dem M (proj1 H) (proj1 (proj2 H)) (proj1 (proj2 (proj2 (proj2 H)))) (proj2 (proj2 (proj2 (proj2 H)))) z X (proj1 (proj2 (proj2 H)))). Qed.
Print Assumptions C55_most_likely.

(** Any calls on such an object get right replies, as in C53. *)
Theorem C55_session : forall nd no M dem cs, let g := load_dem RD nd no dem in
  sound_model nd no M dem -> all_fair g cs ->
  exists K m' rs, (forall fuel, (K <= fuel)%nat -> mrun fuel cyclic_ints (new_matching g) cs = Ok (m', rs)) /\ all_right g cs rs.
Proof. exact (fun nd no M dem cs H => run_ok cs _ _ (model_fits nd no dem M (proj1 H) (proj1 (proj2 H)) (proj1 (proj2 (proj2 H))))). Qed.
Print Assumptions C55_session.
(** As long as the graph is that of the model, a right reply is a most likely one: this covers the rows of batches and repeated calls. *)
Theorem C55_right_is_most_likely : forall nd no M dem P row w, sound_model nd no M dem ->
  right_row (load_dem RD nd no dem) P row w -> most_likely (mechanisms RD dem) no M P row w.
Proof. exact (fun nd no M dem P row w H => row_most_likely nd no dem M (proj1 H) (proj1 (proj2 H)) (proj1 (proj2 (proj2 (proj2 H)))) P row w). Qed.
Print Assumptions C55_right_is_most_likely.
(** And events that few enough mechanisms explain can be asked about. *)
Theorem C55_explainable : forall nd no M dem P X, let ms := mechanisms RD dem in let g := load_dem RD nd no dem in
  sound_model nd no M dem -> explains_events ms P X -> little ms X -> usable g /\ explainable g P.
Proof.
  exact (fun nd no M dem P X H EX HN => conj (model_usable nd no dem (proj1 H) (proj1 (proj2 (proj2 (proj2 H)))) (proj2 (proj2 (proj2 (proj2 H))))) (model_explainable nd no dem (proj1 H) (proj1 (proj2 (proj2 (proj2 H)))) P X EX HN)).
Qed.
Print Assumptions C55_explainable.
(** Any events may be asked about if there are at most 64 detectors, or if any two that are connected are connected by at most 64 mechanisms.
    Events that no mechanisms explain make the call raise an exception. *)
Theorem C55_any_events : forall nd no M dem z, let ms := mechanisms RD dem in let g := load_dem RD nd no dem in
  sound_model nd no M dem -> accepted g z -> (nd <= 64)%nat \/ few_steps (fun p => exists m, In m ms /\ fst (snd m) = p) ->
  exists K m' r, (forall fuel, (K <= fuel)%nat -> mstep fuel cyclic_ints (new_matching g) (AskDecode z) = Ok (m', r)) /\ fits m' g /\
    ((exists X, explains_events ms (event_at z) X) -> exists row w, r = Row row w /\ most_likely ms no M (event_at z) row w) /\
    ((forall X, ~ explains_events ms (event_at z) X) -> r = Raised).
Proof. exact (fun nd no M dem z H => decode_any nd no dem M (proj1 H) (proj1 (proj2 H)) (proj1 (proj2 (proj2 (proj2 H)))) (proj2 (proj2 (proj2 (proj2 H)))) z (proj1 (proj2 (proj2 H)))). Qed.
Print Assumptions C55_any_events.

(** ** A case that meets the hypotheses *)
(** Two mechanisms on detectors 0 and 1, one on detector 1, and an instruction with a component on detector 0 and one on detector 1, more
    likely than not; one detection event, at detector 0. *)
Definition ex_model : list (instruction RD) :=
  [(1/10, [Det 0; Det 1; Obs 0]); (1/5, [Det 1; Det 0; Obs 0]); (1/4, [Det 1]); (3/4, [Det 0; Sep; Det 1])] : list (R * list target).
Definition ex_mechanisms : list mechanism :=
  [(1/10, (0, Some 1, [0])%nat); (1/5, (1, Some 0, [0])%nat); (1/4, (1, None, [])%nat); (3/4, (0, None, [])%nat); (3/4, (1, None, [])%nat)].
Example C55_example_mechanisms : mechanisms RD ex_model = ex_mechanisms.
Proof.
  unfold mechanisms, ex_model. cbn [flat_map p_pos RD]. assert (E1 : Rltb 0 (1/10) = true) by (apply Rltb_true; lra). assert (E2 : Rltb 0 (1/5) = true) by (apply Rltb_true; lra).
  assert (E3 : Rltb 0 (1/4) = true) by (apply Rltb_true; lra). assert (E4 : Rltb 0 (3/4) = true) by (apply Rltb_true; lra). rewrite E1, E2, E3, E4. reflexivity.
Qed.
Lemma filter_le : forall A (f : A -> bool) l, (length (filter f l) <= length l)%nat.
Proof. induction l as [|a l IH]; [cbn; lia|]. cbn. destruct (f a); cbn; lia. Qed.
Lemma ln_small : forall x, /11 <= x <= 11 -> Rabs (ln x) <= 10.
Proof.
  intros x H. apply Rabs_le. assert (U : forall y, 0 < y -> ln y <= y - 1). { intros y Hy. pose proof (exp_ineq1_le (ln y)) as E. rewrite exp_ln in E by exact Hy. lra. }
  split; [|pose proof (U x ltac:(lra)); lra]. pose proof (U (/ x) ltac:(apply Rinv_0_lt_compat; lra)) as E. rewrite ln_Rinv in E by lra. assert (/ x <= 11); [|lra]. replace 11 with (/ /11) by (field). apply Rinv_le_contravar; lra.
Qed.
Example C55_example : sound_model 2 1 10 ex_model /\ accepted (load_dem RD 2 1 ex_model) (Syn1 [1; 0]%Z) /\
  explains_events ex_mechanisms (event_at (Syn1 [1; 0]%Z)) [false; false; false; true; false] /\
  little ex_mechanisms [false; false; false; true; false] /\
  (forall m m' k, In m ex_mechanisms -> In m' ex_mechanisms -> on_same_pair m m' = true -> flips_logical k m = flips_logical k m').
Proof.
  assert (SM : sound_model 2 1 10 ex_model).
  { unfold sound_model. rewrite C55_example_mechanisms. split; [|split; [|split; [|split]]].
    - intros p ts H. cbn in H. repeat (destruct H as [H|H]; [injection H as <- <-; lra|]). destruct H.
    - intros m H. cbn in H. unfold log_likelihood_ratio. repeat (destruct H as [<-|H]; [cbn; apply ln_small; lra|]). destruct H.
    - unfold max_user_weight. lra.
    - intros p a b os H. cbn in H. repeat (destruct H as [H|H]; [injection H as <- <- <- <-; split; [lia|split; [intros c Hc; first [discriminate | injection Hc as <-; lia]|intros k Hk; cbn in Hk; lia]]|]). destruct H.
    - right. exists (1/10, (0, Some 1, [0])%nat). split; [now left|]. unfold together. cbn. unfold exactly_one. eapply Rle_trans; [apply llr_far|apply Rle_abs]. lra. }
  split; [exact SM|]. split.
  - pose proof (model_bnodes 2 1 ex_model) as B. pose proof (model_nodes 2 1 ex_model (proj1 (proj2 (proj2 (proj2 SM))))) as N. revert B N. generalize (load_dem RD 2 1 ex_model : ugraph RN). intros g B N.
    cbn [accepted]. unfold num_detectors. rewrite B, N. cbn. lia.
  - split; [|split].
    + split; [reflexivity|]. intros [|[|[|v]]]; cbn; split; intros H; try reflexivity; try discriminate; try lia; try (exfalso; apply H; reflexivity).
    + left. eapply Nat.le_trans; [apply Nat.add_le_mono_l; apply filter_le|]. cbn. lia.
    + intros m m' k H H' E. cbn in H, H'. repeat (destruct H as [<-|H]; [repeat (destruct H' as [<-|H']; [first [reflexivity | discriminate E]|]); destruct H'|]). destruct H.
Qed.
(** A hundred detectors, each with a mechanism of its own, and an event at every one of them. *)
Definition many_model : list (instruction RD) := map (fun i => (1/10, [Det i; Obs 0]) : R * list target) (seq 0 100).
Definition many_mechanisms : list mechanism := map (fun i => (1/10, (i, None, [0%nat]))) (seq 0 100).
Example C55_many_mechanisms : mechanisms RD many_model = many_mechanisms.
Proof.
  unfold mechanisms, many_model, many_mechanisms. assert (E1 : Rltb 0 (1/10) = true) by (apply Rltb_true; lra). generalize (seq 0 100). induction l as [|i l IH]; [reflexivity|]. cbn [map flat_map p_pos RD]. rewrite E1. exact (f_equal (cons (1 / 10, (i, None, [0%nat]))) IH).
Qed.
Lemma many_odd : forall n s v, oddly (flips_detector v) (map (fun i => (1/10, (i, None, [0%nat]))) (seq s n)) (repeat true n) = (s <=? v)%nat && (v <? s + n)%nat.
Proof.
  induction n as [|n IH]; intros s v; [cbn [seq map repeat oddly]; destruct (Nat.leb_spec s v), (Nat.ltb_spec v (s + 0)); try reflexivity; lia|].
  cbn [seq map repeat oddly flips_detector]. rewrite IH. destruct (Nat.eqb_spec s v), (Nat.leb_spec s v), (Nat.leb_spec (S s) v), (Nat.ltb_spec v (S s + n)), (Nat.ltb_spec v (s + S n)); try reflexivity; lia.
Qed.
Example C55_many_example : sound_model 100 1 10 many_model /\ accepted (load_dem RD 100 1 many_model) (Syn1 (repeat 1%Z 100)) /\
  explains_events many_mechanisms (event_at (Syn1 (repeat 1%Z 100))) (repeat true 100) /\ number (repeat true 100) = 100%nat /\ little many_mechanisms (repeat true 100).
Proof.
  assert (SM : sound_model 100 1 10 many_model).
  { unfold sound_model. rewrite C55_many_mechanisms. split; [|split; [|split; [|split]]].
    - intros p ts H. apply in_map_iff in H as (i & H & _). injection H as <- <-. lra.
    - intros m H. apply in_map_iff in H as (i & <- & _). cbn [fst]. unfold log_likelihood_ratio. apply ln_small. lra.
    - unfold max_user_weight. lra.
    - intros p a b os H. apply in_map_iff in H as (i & H & Hi). injection H as <- <- <- <-. apply in_seq in Hi. split; [lia|]. split; [discriminate|]. intros k [<-|[]]. lia.
    - right. exists (1/10, (0, None, [0])%nat). split; [now left|]. unfold together. cbn. unfold exactly_one. eapply Rle_trans; [apply llr_far|apply Rle_abs]. lra. }
  split; [exact SM|]. split.
  - pose proof (model_bnodes 100 1 many_model) as B. pose proof (model_nodes 100 1 many_model (proj1 (proj2 (proj2 (proj2 SM))))) as N. revert B N. generalize (load_dem RD 100 1 many_model : ugraph RN). intros g B N.
    cbn [accepted]. unfold num_detectors. rewrite B, N, repeat_length. cbn. lia.
  - split; [split; [reflexivity|]|split; [reflexivity|]].
    + intros v. unfold many_mechanisms. rewrite many_odd. cbn [event_at]. destruct (le_lt_dec 100 v) as [L|L].
      * rewrite nth_overflow by (rewrite repeat_length; exact L). split; [|congruence]. intros H. apply andb_true_iff in H as [_ H]. apply Nat.ltb_lt in H. lia.
      * assert (X : forall n k, (k < n)%nat -> nth k (repeat 1%Z n) 0%Z = 1%Z) by (induction n as [|n IH]; intros [|k] H; try lia; [reflexivity|cbn; apply IH; lia]).
        rewrite (X 100%nat v L). split; [discriminate|]. intros _. apply andb_true_iff. split; [apply Nat.leb_le|apply Nat.ltb_lt]; lia.
    + right. apply single_steps. intros p (m & Hm & <-). apply in_map_iff in Hm as (i & <- & _). reflexivity.
Qed.
(** A ring of three detectors, and an event at one of them: nothing explains it. *)
Definition ring_model : list (instruction RD) := [(1/10, [Det 0; Det 1; Obs 0]); (1/5, [Det 1; Det 2]); (3/4, [Det 2; Det 0])] : list (R * list target).
Definition ring_mechanisms : list mechanism := [(1/10, (0, Some 1, [0])%nat); (1/5, (1, Some 2, [])%nat); (3/4, (2, Some 0, [])%nat)].
Example C55_ring_mechanisms : mechanisms RD ring_model = ring_mechanisms.
Proof.
  unfold mechanisms, ring_model. cbn [flat_map p_pos RD]. assert (E1 : Rltb 0 (1/10) = true) by (apply Rltb_true; lra). assert (E2 : Rltb 0 (1/5) = true) by (apply Rltb_true; lra).
  assert (E4 : Rltb 0 (3/4) = true) by (apply Rltb_true; lra). rewrite E1, E2, E4. reflexivity.
Qed.
Example C55_unexplained_example : sound_model 3 1 10 ring_model /\ accepted (load_dem RD 3 1 ring_model) (Syn1 [1; 0; 0]%Z) /\
  (forall X, ~ explains_events ring_mechanisms (event_at (Syn1 [1; 0; 0]%Z)) X) /\
  accepted (load_dem RD 3 1 ring_model) (Syn1 [1; 0; 1]%Z) /\ explains_events ring_mechanisms (event_at (Syn1 [1; 0; 1]%Z)) [true; true; false].
Proof.
  assert (SM : sound_model 3 1 10 ring_model).
  { unfold sound_model. rewrite C55_ring_mechanisms. split; [|split; [|split; [|split]]].
    - intros p ts H. cbn in H. repeat (destruct H as [H|H]; [injection H as <- <-; lra|]). destruct H.
    - intros m H. cbn in H. unfold log_likelihood_ratio. repeat (destruct H as [<-|H]; [cbn; apply ln_small; lra|]). destruct H.
    - unfold max_user_weight. lra.
    - intros p a b os H. cbn in H. repeat (destruct H as [H|H]; [injection H as <- <- <- <-; split; [lia|split; [intros c Hc; first [discriminate | injection Hc as <-; lia]|intros k Hk; cbn in Hk; lia]]|]). destruct H.
    - right. exists (1/10, (0, Some 1, [0])%nat). split; [now left|]. unfold together. cbn. unfold exactly_one. eapply Rle_trans; [apply llr_far|apply Rle_abs]. lra. }
  split; [exact SM|]. pose proof (model_bnodes 3 1 ring_model) as B. pose proof (model_nodes 3 1 ring_model (proj1 (proj2 (proj2 (proj2 SM))))) as N. revert B N. generalize (load_dem RD 3 1 ring_model : ugraph RN). intros g B N.
  cbn [accepted]. unfold num_detectors. rewrite B, N. cbn [length]. split; [lia|]. split; [|split; [lia|]].
  - intros X [L H]. destruct X as [|a [|b [|c [|]]]]; try discriminate L. pose proof (H 0%nat) as H0. pose proof (H 1%nat) as H1. pose proof (H 2%nat) as H2.
    destruct a, b, c; cbn in H0, H1, H2; first [now apply (proj1 H1 eq_refl) | now apply (proj1 H2 eq_refl) | assert (A : 1%Z <> 0%Z) by discriminate; apply H0 in A; discriminate].
  - split; [reflexivity|]. intros [|[|[|[|v]]]]; cbn; split; intros H; try reflexivity; try discriminate; try lia; try (exfalso; apply H; reflexivity).
Qed.
