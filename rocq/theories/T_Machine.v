(** C42: with the machine's 32-bit integers, decoding ends when some correction weighs less than 2^31, or when there is a
    correction and no two events that paths join are further apart than that.

    [machine_ints] (M_Core.v) are the conversions of the code: int32_t for the cached radii, 32-bit times in the queue.
    C42 has no bound on the weight of the correction and is then false (C42_refuted: 68 edges of the largest weight;
    64 of them stay below the bound).  The bound is on the weight of one correction, or on distances, not on the
    graph or the number of events. *)
From Coq Require Import ZArith NArith List Bool Arith Lia.
From Verif Require Import M_Base M_Core M_Session S_Core S_Session S_Decode S_Reach M_Build S_Build M_Flip S_Flip M_Search S_Search M_ToEdges S_ToEdges
  P_WfCheck P_Session P_Decode P_Halt P_Halt2 P_Machine T_Core T_Build T_EndToEnd T_ToEdges.
Import ListNotations.
Local Open Scope Z_scope.

(** Decoding ends with a correction of minimum weight and an idle decoder.  Missing for C42: events 2^31 or more
    apart without a lighter correction (false); syndromes without correction are in T_Failing.v. *)
Theorem C42_light_correction_partial : forall G orc s evs F,
  wf_graph G -> (forall u x w o, In (x, w, o) (nbrs G u) -> w <= max_weight) -> idle G s -> valid_events G evs ->
  explains G F evs -> weight_of F < 2 ^ 31 \/ within G evs (2 ^ 31) ->
  exists K s' o w l, (forall fuel, (K <= fuel)%nat -> decode G fuel orc machine_ints plain s evs = Ok (s', (o, w, l))) /\ idle G s' /\
    (exists F, NoDup F /\ explains G F evs /\ obs_of F = o /\ weight_of F = w) /\ (forall F, explains G F evs -> w <= weight_of F).
Proof. exact (fun G orc s evs F WF HW HI V HF HL => machine_plain G orc s evs F WF HW HI V (conj HF HL)). Qed.
Print Assumptions C42_light_correction_partial.

(** The same from the edges given by the caller, with signed weights: the weights of all negative edges count. *)
Theorem C42_signed_weights_partial : forall nobs n E g bnd orc s evs Y,
  build nobs n E = Ok g -> ForallOrdPairs (fun e f => ~ parallel e f) E -> (forall e, In e E -> Z.even (s_weight e) = true) -> boundary_bare bnd E ->
  (forall e, In e E -> Z.abs (s_weight e) <= max_weight) -> idle (adj g) s -> valid_events (adj g) evs ->
  solves E (wanted bnd evs) Y -> s_total (select E Y) + s_abs (filter (fun e => s_weight e <? 0) E) < 2 ^ 31 \/ s_within E (2 ^ 31) ->
  exists K s' o w l X, (forall fuel, (K <= fuel)%nat -> decode (adj g) fuel orc machine_ints (neg_info_of nobs g bnd) s evs = Ok (s', (o, w, l))) /\
    solves E (wanted bnd evs) X /\ s_total (select E X) = w /\ ((nobs <= 64)%nat -> forall k, N.testbit o (N.of_nat k) = s_flips k (select E X)) /\
    forall Y, solves E (wanted bnd evs) Y -> w <= s_total (select E Y).
Proof.
  exact (fun nobs n E g bnd orc s evs Y HB NP EV BN MW HI V HY HL =>
    signed_ends nobs n E g bnd HB NP EV BN (NI := machine_ints) (AB := machine_signed_able nobs n E g bnd HB NP EV BN MW evs Y HY HL) orc s evs HI V (ex_intro _ Y HY)).
Qed.
Print Assumptions C42_signed_weights_partial.

(** ... to solution edges, including the searches for shortest paths, ... *)
Theorem C42_solution_edges_partial : forall nobs n E g sg bnd orc orc2 s q M evs Y,
  build nobs n E = Ok g -> sbuild n E = Ok sg ->
  ForallOrdPairs (fun e f => ~ parallel e f) E -> (forall e, In e E -> Z.even (s_weight e) = true) -> boundary_bare bnd E -> (forall e, In e E -> ~ negative_loop e) ->
  (forall e, In e E -> Z.abs (s_weight e) <= max_weight) ->
  idle (adj g) s -> search_idle q -> valid_events (adj g) evs -> unmarked (sadj sg) M ->
  solves E (wanted bnd evs) Y -> s_total (select E Y) + s_abs (filter (fun e => s_weight e <? 0) E) < 2 ^ 31 \/ s_within E (2 ^ 31) ->
  exists K s' q' M' out X,
    (forall fuel, (K <= fuel)%nat -> decode_to_edges (adj g) (sadj sg) fuel fuel orc orc2 machine_ints (neg_info_of nobs g bnd) (sneg sg) s q M evs = Ok (s', q', M', out)) /\
    lists_edges out (select E X) /\ solves E (wanted bnd evs) X /\
    forall Y, solves E (wanted bnd evs) Y -> s_total (select E X) <= s_total (select E Y).
Proof.
  exact (fun nobs n E g sg bnd orc orc2 s q M evs Y HB HS NP EV BN NL MW HI HQ V UM HY HL =>
    edges_end nobs n E g bnd HB NP EV BN sg HS NL (NI := machine_ints) (AB := machine_signed_able nobs n E g bnd HB NP EV BN MW evs Y HY HL) orc orc2 s q M evs HI HQ V UM (ex_intro _ Y HY)).
Qed.
Print Assumptions C42_solution_edges_partial.

(** ... and with any number of observables. *)
Theorem C42_many_observables_partial : forall nobs n E g sg bnd orc orc2 s q evs Y,
  build nobs n E = Ok g -> sbuild n E = Ok sg ->
  ForallOrdPairs (fun e f => ~ parallel e f) E -> (forall e, In e E -> Z.even (s_weight e) = true) -> boundary_bare bnd E ->
  (forall e, In e E -> Z.abs (s_weight e) <= max_weight) ->
  idle (adj g) s -> search_idle q -> valid_events (adj g) evs ->
  solves E (wanted bnd evs) Y -> s_total (select E Y) + s_abs (filter (fun e => s_weight e <? 0) E) < 2 ^ 31 \/ s_within E (2 ^ 31) ->
  exists K s' q' o w X,
    (forall fuel, (K <= fuel)%nat -> decode_many_observables (adj g) (sadj sg) fuel fuel orc orc2 machine_ints (neg_info_of nobs g bnd) (neg_obss g) s q evs = Ok (s', q', (o, w))) /\
    solves E (wanted bnd evs) X /\ s_total (select E X) = w /\ (forall i, N.testbit o (N.of_nat i) = s_flips i (select E X)) /\
    forall Y, solves E (wanted bnd evs) Y -> w <= s_total (select E Y).
Proof.
  exact (fun nobs n E g sg bnd orc orc2 s q evs Y HB HS NP EV BN MW HI HQ V HY HL =>
    many_end nobs n E g bnd HB NP EV BN sg HS (NI := machine_ints) (AB := machine_signed_able nobs n E g bnd HB NP EV BN MW evs Y HY HL) orc orc2 s q evs HI HQ V (ex_intro _ Y HY)).
Qed.
Print Assumptions C42_many_observables_partial.

(** On user graphs with boundary nodes (see C45). *)
Theorem C42_user_graph_partial : forall nobs n B E g orc s evs F,
  nodes_below n E -> ForallOrdPairs (fun e f => ~ parallel e f) E -> (forall e, In e E -> Z.even (s_weight e) = true) ->
  (forall e, In e E -> 0 <= s_weight e) -> to_matching_graph nobs n B E = Ok g ->
  (forall e, In e E -> s_weight e <= max_weight) -> idle (adj g) s -> valid_events (adj g) evs ->
  u_explains E B F evs -> s_total F < 2 ^ 31 ->
  exists K s' o w l, (forall fuel, (K <= fuel)%nat -> decode (adj g) fuel orc machine_ints (neg_info_of nobs g (map B (seq 0 n))) s evs = Ok (s', (o, w, l))) /\ idle (adj g) s' /\
    (exists F, u_explains E B F evs /\ s_total F = w /\ u_mask nobs F = o) /\ forall F, u_explains E B F evs -> w <= s_total F.
Proof.
  exact (fun nobs n B E g orc s evs F RB NP EV POS HC MW HI V HF HL =>
    user_ends nobs n B E g RB NP EV POS HC (NI := machine_ints) (AB := machine_user_able nobs n B E g RB NP EV POS HC evs F MW V HF HL) orc s evs HI V (ex_intro _ F HF)).
Qed.
Print Assumptions C42_user_graph_partial.

(** C47 on user graphs, and with any number of observables; exact integers, no bound on weights. *)
Theorem C47_user_graph : forall nobs n B E g orc s evs,
  nodes_below n E -> ForallOrdPairs (fun e f => ~ parallel e f) E -> (forall e, In e E -> Z.even (s_weight e) = true) ->
  (forall e, In e E -> 0 <= s_weight e) -> to_matching_graph nobs n B E = Ok g -> idle (adj g) s -> valid_events (adj g) evs ->
  (exists F, u_explains E B F evs) ->
  exists K s' o w l, (forall fuel, (K <= fuel)%nat -> decode (adj g) fuel orc exact_ints (neg_info_of nobs g (map B (seq 0 n))) s evs = Ok (s', (o, w, l))) /\ idle (adj g) s' /\
    (exists F, u_explains E B F evs /\ s_total F = w /\ u_mask nobs F = o) /\ forall F, u_explains E B F evs -> w <= s_total F.
Proof. exact (fun nobs n B E g orc s evs RB NP EV POS HC => user_ends nobs n B E g RB NP EV POS HC orc s evs). Qed.
Print Assumptions C47_user_graph.

Theorem C47_user_graph_infeasible : forall nobs n B E g orc s evs,
  nodes_below n E -> ForallOrdPairs (fun e f => ~ parallel e f) E -> (forall e, In e E -> Z.even (s_weight e) = true) ->
  (forall e, In e E -> 0 <= s_weight e) -> to_matching_graph nobs n B E = Ok g -> idle (adj g) s -> valid_events (adj g) evs ->
  (forall F, ~ u_explains E B F evs) ->
  exists K, forall fuel, (K <= fuel)%nat -> decode (adj g) fuel orc exact_ints (neg_info_of nobs g (map B (seq 0 n))) s evs = Throw.
Proof. exact (fun nobs n B E g orc s evs RB NP EV POS HC => user_raises nobs n B E g RB NP EV POS HC orc s evs). Qed.
Print Assumptions C47_user_graph_infeasible.

Theorem C47_many_observables : forall nobs n E g sg bnd orc orc2 s q evs,
  build nobs n E = Ok g -> sbuild n E = Ok sg ->
  ForallOrdPairs (fun e f => ~ parallel e f) E -> (forall e, In e E -> Z.even (s_weight e) = true) -> boundary_bare bnd E ->
  idle (adj g) s -> search_idle q -> valid_events (adj g) evs -> (exists Y, solves E (wanted bnd evs) Y) ->
  exists K s' q' o w X,
    (forall fuel, (K <= fuel)%nat -> decode_many_observables (adj g) (sadj sg) fuel fuel orc orc2 exact_ints (neg_info_of nobs g bnd) (neg_obss g) s q evs = Ok (s', q', (o, w))) /\
    solves E (wanted bnd evs) X /\ s_total (select E X) = w /\ (forall i, N.testbit o (N.of_nat i) = s_flips i (select E X)) /\
    forall Y, solves E (wanted bnd evs) Y -> w <= s_total (select E Y).
Proof. exact (fun nobs n E g sg bnd orc orc2 s q evs HB HS NP EV BN => many_end nobs n E g bnd HB NP EV BN sg HS orc orc2 s q evs). Qed.
Print Assumptions C47_many_observables.

(** ** Cases that meet the hypotheses *)

(** 64 detectors in a row, every weight the largest accepted one: just below the bound; compare C42_refuted. *)
Definition row : list edge := map (fun i => (i, if (i =? 63)%nat then None else Some (S i), max_weight, if (i =? 63)%nat then 1%N else 0%N)) (seq 0 64).
Example C42_light_example : wf_graph (long_path 64) /\ idle (long_path 64) init_state /\ weight_of row = 2147483520 /\
  Forall (fun e => let '(u, x, w, o) := e in In (x, w, o) (nbrs (long_path 64) u)) row /\
  map (fun v => Nat.odd (degree v row)) (seq 0 65) = true :: repeat false 64 /\
  shown_decode (decode (long_path 64) 400 any machine_ints plain init_state [0%nat]) = Some (1%N, 2147483520, [mkE (Some 0%nat) None 1%N]).
Proof.
  split; [apply wf_check_sound; vm_compute; reflexivity|]. split; [apply init_idle|]. split; [reflexivity|]. split; [|split; vm_compute; reflexivity].
  unfold row. apply Forall_forall. intros e He. apply in_map_iff in He as (i & <- & Hi).
  assert (H : forallb (fun i => existsb (nbr_eqb (if (i =? 63)%nat then None else Some (S i), max_weight, if (i =? 63)%nat then 1%N else 0%N)) (nbrs (long_path 64) i)) (seq 0 64) = true)
    by (vm_compute; reflexivity).
  pose proof (proj1 (forallb_forall _ _) H i Hi) as E. apply existsb_exists in E as (y & Hy & Ey). apply nbr_eqb_spec in Ey. now subst y.
Qed.
(** 65 pairs of detectors, each pair joined by an edge of the largest weight: every correction weighs more than 2^31, but no
    two detectors that paths join are further apart than one edge. *)
Definition partner (v : nat) : nat := if Nat.even v then S v else Nat.pred v.
Definition pairs : graph := map (fun v => [(Some (partner v), max_weight, 0%N)]) (seq 0 130).
Definition pairing : list edge := map (fun i => (2 * i, Some (S (2 * i)), max_weight, 0%N)%nat) (seq 0 65).
Lemma partner_twice : forall v, partner (partner v) = v.
Proof.
  intros v. unfold partner. destruct (Nat.even v) eqn:E; [rewrite Nat.even_succ, <- Nat.negb_even, E; reflexivity|]. destruct v as [|v]; [discriminate|]. cbn [Nat.pred].
  rewrite Nat.even_succ, <- Nat.negb_even in E. apply negb_false_iff in E. now rewrite E.
Qed.
Lemma pairs_nbrs : forall v x w o, In (x, w, o) (nbrs pairs v) -> x = Some (partner v) /\ w = max_weight.
Proof.
  intros v x w o H. unfold nbrs, pairs in H. destruct (le_lt_dec 130 v) as [L|L]; [rewrite nth_overflow in H by (rewrite map_length, seq_length; exact L); destruct H|].
  rewrite (nth_indep _ [] [(Some (partner 0), max_weight, 0%N)]) in H by (rewrite map_length, seq_length; exact L). rewrite (map_nth (fun v => [(Some (partner v), max_weight, 0%N)])) in H.
  rewrite seq_nth in H by exact L. destruct H as [H|[]]. injection H as <- <- <-. auto.
Qed.
Example C42_far_example : wf_graph pairs /\ (forall u x w o, In (x, w, o) (nbrs pairs u) -> w <= max_weight) /\ within pairs (seq 0 130) (2 ^ 31) /\
  2 ^ 31 < weight_of pairing /\ Forall (fun e => let '(u, x, w, o) := e in In (x, w, o) (nbrs pairs u)) pairing /\
  map (fun v => Nat.odd (degree v pairing)) (seq 0 130) = repeat true 130 /\
  match decode pairs 800 any machine_ints plain init_state (seq 0 130) with Ok (_, (_, w, _)) => w = weight_of pairing | _ => False end.
Proof.
  split; [apply wf_check_sound; vm_compute; reflexivity|]. split; [intros u x w o H; apply pairs_nbrs in H as [_ ->]; lia|]. split.
  - intros a x l o Ha _ P. assert (W : forall v l o, walk pairs a v l o -> exists l' o', walk pairs a v l' o' /\ (v = a /\ l' = 0 \/ v = partner a /\ l' = max_weight)).
    { clear P. intros v l0 o0 P. induction P as [|v l0 o0 y w ob P IH Hin]; [exists 0, 0%N; split; [constructor|now left]|]. destruct IH as (l' & o' & P' & [[-> ->]|[-> ->]]).
      - exists (0 + w), (N.lxor o' ob). split; [exact (walk_step _ _ _ _ _ _ _ _ P' Hin)|]. apply pairs_nbrs in Hin as [Hy ->]. injection Hy as ->. right. auto.
      - apply pairs_nbrs in Hin as [Hy _]. rewrite partner_twice in Hy. injection Hy as ->. exists 0, 0%N. split; [constructor|now left]. }
    destruct x as [v|]; [|exfalso; cbn in P; destruct P as (v & l' & o' & w & ob & _ & P & _); apply pairs_nbrs in P as [P _]; discriminate].
    destruct (W v l o P) as (l' & o' & P' & H). exists l', o'. split; [exact P'|]. unfold max_weight in H. lia.
  - split; [reflexivity|]. split; [|split; vm_compute; reflexivity].
    assert (H : forallb (fun e => let '(u, x, w, o) := e in existsb (nbr_eqb (x, w, o)) (nbrs pairs u)) pairing = true) by (vm_compute; reflexivity).
    apply Forall_forall. intros [[[u x] w] o] He. pose proof (proj1 (forallb_forall _ _) H _ He) as E. cbn in E. apply existsb_exists in E as (y & Hy & Ey). apply nbr_eqb_spec in Ey. now subst y.
Qed.
(** [kite] (T_Core.v) forms a blossom. *)
Example C42_blossom_example : exists F, explains kite F [4; 0; 2; 1]%nat /\ weight_of F < 2 ^ 31 /\
  (forall u x w o, In (x, w, o) (nbrs kite u) -> w <= max_weight) /\
  match decode kite 60 fifo machine_ints plain init_state [4; 0; 2; 1]%nat with Ok (_, (_, w, _)) => w = 12 | _ => False end.
Proof.
  destruct C02_example as (F & H & W). exists F. split; [exact H|]. split; [destruct W as (_ & W); lia|]. split; [|vm_compute; reflexivity].
  intros u x w o Hin. do 5 (destruct u as [|u]; [cbn in Hin; repeat (destruct Hin as [Hin|Hin]; [injection Hin as <- <- <-; unfold max_weight; lia|]); destruct Hin|]). destruct u; destruct Hin.
Qed.
(** [te_ex] (T_ToEdges.v, where the other hypotheses are shown). *)
Example C42_signed_example : exists g sg, build 71 4 te_ex = Ok g /\ sbuild 4 te_ex = Ok sg /\ valid_events (adj g) [0; 2]%nat /\
  (forall e, In e te_ex -> Z.abs (s_weight e) <= max_weight) /\ solves te_ex (wanted [] [0; 2]%nat) [true; true; false; false; false; false] /\
  s_total (select te_ex [true; true; false; false; false; false]) + s_abs (filter (fun e => s_weight e <? 0) te_ex) < 2 ^ 31 /\
  shown_edges (decode_to_edges (adj g) (sadj sg) 200 200 any any machine_ints (neg_info_of 71 g []) (sneg sg) init_state search_init (marks_of sg) [0; 2]%nat)
    = Some [(1%nat, Some 2%nat); (0%nat, Some 1%nat)] /\
  shown_answer (decode_many_observables (adj g) (sadj sg) 200 200 any any machine_ints (neg_info_of 71 g []) (neg_obss g) init_state search_init [0; 2]%nat) = Some ((2 ^ 70 + 1)%N, 2).
Proof.
  do 2 eexists. split; [vm_compute; reflexivity|]. split; [vm_compute; reflexivity|].
  split; [split; [repeat constructor; simpl; intuition discriminate|intros v Hv; simpl in Hv; simpl; intuition; subst v; lia]|].
  split; [intros e He; simpl in He; intuition; subst e; unfold max_weight; simpl; lia|].
  split; [split; [reflexivity|]; intros v; do 5 (destruct v as [|v]; [reflexivity|]); reflexivity|].
  split; [reflexivity|]. split; vm_compute; reflexivity.
Qed.
(** [bnd_ex] (T_Build.v; C45_example shows the other hypotheses). *)
Example C42_user_example : exists g, to_matching_graph 4 5 B_ex bnd_ex = Ok g /\ (forall e, In e bnd_ex -> s_weight e <= max_weight) /\
  (exists F, u_explains bnd_ex B_ex F [1; 3]%nat /\ s_total F < 2 ^ 31) /\
  match decode (adj g) 200 any machine_ints (neg_info_of 4 g (map B_ex (seq 0 5))) init_state [1; 3]%nat with Ok (_, (o, w, _)) => o = 5%N /\ w = 10 | _ => False end.
Proof.
  eexists. split; [vm_compute; reflexivity|]. split; [intros e He; simpl in He; intuition; subst e; unfold max_weight; simpl; lia|]. split.
  - destruct C45_example as (g & s' & l & H1 & H2 & H3 & H4 & H5 & H6 & H7).
    destruct (C45_user_graph 4 5 B_ex bnd_ex g 200 (fun _ => 0%nat) init_state [1; 3]%nat s' 5%N 10 l H2 H3 H4 H5 H1 (init_idle _) H6 H7) as ((F & F1 & F2 & _) & _).
    exists F. split; [exact F1|]. rewrite F2. reflexivity.
  - vm_compute. auto.
Qed.
