(** The two ways to load a check matrix have the same corrections and report the same weights. *)
From Coq Require Import Reals ZArith NArith List Bool Arith Lia Lra Permutation Classical.
From Verif Require Import M_Base M_Core M_CoreHeap M_Discretise M_Merge M_Bits S_Bits M_CheckMatrix S_CheckMatrix M_Matching S_Matching M_UserGraph S_UserGraph P_UserGraph S_Spread P_Spread S_Pipeline P_Pipeline S_MatrixDecode P_Matching P_MatrixDecode S_Weights P_Weights S_Virtual P_Virtual.
Import ListNotations.
Local Open Scope nat_scope.

Section Pair.
Variables (n : nat) (gv gb : ugraph RN).
Hypothesis LY : same_layout n gv gb.
Notation mv := (to_node (N := RN) n).

Lemma mv_ends : forall e v, v <> n -> edge_ends v (mv e) = edge_ends v e.
Proof. intros e v H. unfold edge_ends, to_node. cbn [node1 node2]. destruct (node2 e) as [x|]; [reflexivity|]. destruct (Nat.eqb_spec n v); [congruence|reflexivity]. Qed.
Lemma mv_degree : forall F v, v <> n -> total_degree v (map mv F) = total_degree v F.
Proof. intros F v H. induction F as [|e F IH]; [reflexivity|]. unfold total_degree in *. cbn [map fold_right]. now rewrite mv_ends, IH. Qed.
Lemma mv_weights : forall F, map weight (map mv F) = map weight F.
Proof. intros F. rewrite map_map. reflexivity. Qed.
Lemma mv_flips : forall F k, flips_observable k (map mv F) = flips_observable k F.
Proof. intros F k. induction F as [|e F IH]; [reflexivity|]. unfold flips_observable in *. cbn [map fold_right]. now rewrite IH. Qed.
Lemma mv_inj : forall e f, In e (edges gv) -> In f (edges gv) -> mv e = mv f -> e = f.
Proof.
  intros [a x o w p] [b y o' w' p'] He Hf H. unfold to_node in H. cbn [node1 node2 obs weight prob] in H. injection H as -> H -> -> ->. f_equal.
  destruct (l_below _ _ _ LY _ He) as [_ H1]. destruct (l_below _ _ _ LY _ Hf) as [_ H2]. cbn [node2] in *. destruct x as [x|], y as [y|]; [congruence| | |reflexivity]; [specialize (H1 x eq_refl)|specialize (H2 y eq_refl)]; lia.
Qed.
Lemma mv_NoDup : forall F, incl F (edges gv) -> NoDup F -> NoDup (map mv F).
Proof.
  intros F I ND. induction ND as [|e F Ne ND IH]; [constructor|]. cbn [map]. constructor; [|apply IH; intros x Hx; apply I; now right].
  intros H. apply in_map_iff in H as (f & E & Hf). apply mv_inj in E; [subst; contradiction| |]; apply I; [now right|now left].
Qed.
Lemma out_degree : forall F v, incl F (edges gv) -> n <= v -> total_degree v F = 0.
Proof.
  intros F v I H. induction F as [|e F IH]; [reflexivity|]. unfold total_degree in *. cbn [fold_right]. rewrite IH by (intros x Hx; apply I; now right).
  destruct (l_below _ _ _ LY e (I e (or_introl eq_refl))) as [H1 H2]. unfold edge_ends. destruct (Nat.eqb_spec (node1 e) v); [lia|]. destruct (node2 e) as [x|]; [|reflexivity]. specialize (H2 x eq_refl). destruct (Nat.eqb_spec x v); lia.
Qed.
(** Events at the nodes that there are. *)
Definition here (P1 P2 : nat -> Prop) : Prop := events_below n P1 P2 /\ (forall v, P1 v -> v < n) /\ forall v, P2 v -> v < num_nodes gb.
Lemma here_away : forall P1 P2 v, here P1 P2 -> v <> n -> (P1 v <-> P2 v).
Proof.
  intros P1 P2 v (H & A & B) Hv. destruct (Nat.lt_ge_cases v n) as [L|L]; [now apply H|]. split; intros X; [apply A in X; lia|]. apply B in X.
  destruct (classic (exists e, In e (edges gv) /\ node2 e = None)) as [Q|Q]; [destruct (l_with _ _ _ LY Q) as [E _]|destruct (l_without _ _ _ LY Q) as [E _]]; lia.
Qed.
Lemma lone_none : ~ (exists e, In e (edges gv) /\ node2 e = None) -> forall F, incl F (edges gv) -> map mv F = F.
Proof.
  intros H F I. induction F as [|e F IH]; [reflexivity|]. cbn [map]. rewrite IH by (intros x Hx; apply I; now right). f_equal. destruct (node2 e) as [x|] eqn:E; [|destruct H; exists e; split; [apply I; now left|exact E]].
  destruct e as [a y o w p]. unfold to_node. cbn [node1 node2 obs weight prob] in *. now rewrite E.
Qed.
Lemma corrects_mv : forall F evs1 evs2, here (fun v => In v evs1) (fun v => In v evs2) -> incl F (edges gv) -> (corrects gv F evs1 <-> corrects gb (map mv F) evs2).
Proof.
  intros F evs1 evs2 HH I. assert (HB : forall v, ~ In v (bnodes gb) -> (Nat.odd (total_degree v (map mv F)) = true <-> In v evs2) <-> (Nat.odd (total_degree v F) = true <-> In v evs1)).
  { intros v Hv. destruct (Nat.eq_dec v n) as [->|Nv]; [|rewrite mv_degree by exact Nv; rewrite (here_away _ _ v HH Nv); reflexivity].
    destruct (classic (exists e, In e (edges gv) /\ node2 e = None)) as [Q|Q]; [destruct (l_with _ _ _ LY Q) as [_ E]; rewrite E in Hv; destruct Hv; now left|]. destruct (l_without _ _ _ LY Q) as [E1 E2].
    rewrite (lone_none Q F I), (out_degree F n I (le_n n)). destruct HH as (_ & A & B). split; intros _; (split; [discriminate|]); intros X; [apply A in X|apply B in X]; lia. }
  split; intros (A & B & C).
  - split; [now apply mv_NoDup|]. split; [rewrite (l_edges _ _ _ LY); now apply incl_map|]. intros v Hv. apply HB; [exact Hv|]. apply C. rewrite (l_virtual _ _ _ LY). intros [].
  - split; [exact (NoDup_map_inv _ _ A)|]. split; [exact I|]. intros v _. destruct (Nat.eq_dec v n) as [->|Nv].
    + rewrite (out_degree F n I (le_n n)). split; [discriminate|]. intros X. destruct HH as (_ & HA & _). apply HA in X. lia.
    + apply HB; [|apply C]; destruct (classic (exists e, In e (edges gv) /\ node2 e = None)) as [Q|Q]; try (destruct (l_with _ _ _ LY Q) as [_ ->]; intros [X|[]]; congruence); destruct (l_without _ _ _ LY Q) as [_ ->]; intros [].
Qed.
Lemma mv_back : forall F, incl F (edges gb) -> exists F0, F = map mv F0 /\ incl F0 (edges gv).
Proof.
  intros F I. rewrite (l_edges _ _ _ LY) in I. induction F as [|e F IH]; [exists []; split; [reflexivity|intros x []]|]. destruct IH as (F0 & -> & I0); [intros x Hx; apply I; now right|].
  assert (H : In e (map mv (edges gv))) by (apply I; now left). apply in_map_iff in H as (e0 & <- & He). exists (e0 :: F0). split; [reflexivity|]. intros x [<-|Hx]; auto.
Qed.
Lemma here_listed : forall P1 P2 evs1 evs2, here P1 P2 -> (forall v, In v evs1 <-> P1 v) -> (forall v, In v evs2 <-> P2 v) -> here (fun v => In v evs1) (fun v => In v evs2).
Proof. intros P1 P2 evs1 evs2 (A & B & C) H1 H2. split; [intros v Hv; rewrite H1, H2; now apply A|]. split; intros v; rewrite ?H1, ?H2; auto. Qed.
Lemma told_pair : forall P1 P2 w1 w2, here P1 P2 -> told gv P1 w1 -> told gb P2 w2 -> w1 = w2.
Proof.
  intros P1 P2 w1 w2 HH (c1 & evs1 & F1 & C1 & E1 & A1 & A2 & ->) (c2 & evs2 & F2 & C2 & E2 & B1 & B2 & ->). rewrite (l_edges _ _ _ LY), mv_weights, C1 in C2. injection C2 as <-.
  pose proof (here_listed _ _ _ _ HH E1 E2) as HL. destruct (mv_back F2 (proj1 (proj2 B1))) as (F0 & -> & I0). specialize (A2 F0 (proj2 (corrects_mv F0 _ _ HL I0) B1)). specialize (B2 (map mv F1) (proj1 (corrects_mv F1 _ _ HL (proj1 (proj2 A1))) A1)).
  rewrite !rounded_weights in *. rewrite !mv_weights in *. f_equal. lia.
Qed.
Lemma solvable_pair : forall P1 P2 evs1 evs2, (forall v, In v evs1 <-> P1 v) -> (forall v, In v evs2 <-> P2 v) -> here P1 P2 -> (solvable gv P1 <-> solvable gb P2).
Proof.
  intros P1 P2 evs1 evs2 E1 E2 HH. split.
  - intros (e & F & E & C). exists evs2, (map mv F). split; [exact E2|]. apply (corrects_mv F e evs2); [exact (here_listed _ _ _ _ HH E E2)|apply C|exact C].
  - intros (e & F & E & C). destruct (mv_back F (proj1 (proj2 C))) as (F0 & -> & I0). exists evs1, F0. split; [exact E1|]. apply (corrects_mv F0 evs1 e); [exact (here_listed _ _ _ _ HH E1 E)|exact I0|exact C].
Qed.
Lemma some_weight : forall (Q : R -> Prop), (forall e, In e (edges gb) -> Q (weight e)) <-> (forall e, In e (edges gv) -> Q (weight e)).
Proof. intros Q. rewrite (l_edges _ _ _ LY). split; intros H e He; [exact (H (mv e) (in_map mv _ _ He))|apply in_map_iff in He as (e0 & <- & He); exact (H e0 He)]. Qed.
Lemma near_pair : forall F evs1 evs2, here (fun v => In v evs1) (fun v => In v evs2) -> (near_best gv F evs1 <-> near_best gb (map mv F) evs2).
Proof.
  intros F evs1 evs2 HH. split; intros NB X HX.
  - destruct (mv_back X (proj1 (proj2 HX))) as (X0 & -> & I0). destruct (NB X0 (proj2 (corrects_mv X0 _ _ HH I0) HX)) as [Q1 Q2]. rewrite !total_weights in *. rewrite !mv_weights, !map_length. split.
    + intros M HM. apply Q1. exact (proj1 (some_weight (fun w => Rabs w <= M)%R) HM).
    + intros HZ. apply Q2. exact (proj1 (some_weight (fun w => exists z, w = IZR z)) HZ).
  - destruct (NB (map mv X) (proj1 (corrects_mv X _ _ HH (proj1 (proj2 HX))) HX)) as [Q1 Q2]. rewrite !total_weights in *. rewrite !mv_weights, ?map_length in *. split.
    + intros M HM. apply Q1. exact (proj2 (some_weight (fun w => Rabs w <= M)%R) HM).
    + intros HZ. apply Q2. exact (proj2 (some_weight (fun w => exists z, w = IZR z)) HZ).
Qed.
Lemma reported_pair : forall F w, weight_reported gv w F <-> weight_reported gb w (map mv F).
Proof.
  intros F w. unfold weight_reported. rewrite !total_weights, mv_weights, map_length. split; intros [A B]; (split; [intros M HM; apply A; now apply (some_weight (fun w => Rabs w <= M)%R)|intros HZ; apply B; now apply (some_weight (fun w => exists z, w = IZR z))]).
Qed.
Lemma row_pair : forall P1 P2 evs1 evs2 row w, (forall v, In v evs1 <-> P1 v) -> (forall v, In v evs2 <-> P2 v) -> here P1 P2 -> (right_row gv P1 row w <-> right_row gb P2 row w).
Proof.
  intros P1 P2 evs1 evs2 row w E1 E2 HH. unfold right_row. rewrite (l_nobs _ _ _ LY). split.
  - intros (e & F & E & -> & C & NB & W). pose proof (here_listed _ _ _ _ HH E E2) as HL. exists evs2, (map mv F). split; [exact E2|]. split; [apply map_ext; intros k; now rewrite mv_flips|]. split; [apply (corrects_mv F e evs2 HL); [apply C|exact C]|]. split; [now apply (near_pair F e evs2 HL)|now apply reported_pair].
  - intros (e & F & E & -> & C & NB & W). pose proof (here_listed _ _ _ _ HH E1 E) as HL. destruct (mv_back F (proj1 (proj2 C))) as (F0 & -> & I0). exists evs1, F0. split; [exact E1|]. split; [apply map_ext; intros k; now rewrite mv_flips|]. split; [now apply (corrects_mv F0 evs1 e HL)|]. split; [now apply (near_pair F0 evs1 e HL)|now apply reported_pair].
Qed.
(** ** Edges and pairs *)
Lemma cases_b : ((exists e, In e (edges gv) /\ node2 e = None) /\ num_nodes gb = S n /\ bnodes gb = [n]) \/ ((forall e, In e (edges gv) -> node2 e <> None) /\ num_nodes gb = n /\ bnodes gb = []).
Proof.
  destruct (classic (exists e, In e (edges gv) /\ node2 e = None)) as [Q|Q]; [left; split; [exact Q|now apply (l_with _ _ _ LY)]|right; split; [|now apply (l_without _ _ _ LY)]]. intros e He H. apply Q. eauto.
Qed.
Lemma not_b : forall v, v < n -> ~ In v (bnodes gb).
Proof. intros v Hv. destruct cases_b as [(_ & _ & ->)|(_ & _ & ->)]; [intros [X|[]]; lia|intros []]. Qed.
Lemma far_b : forall e, In e (edges gv) -> (at_boundary gb (node2 (mv e)) <-> node2 e = None).
Proof.
  intros e He. destruct (l_below _ _ _ LY e He) as [_ H]. cbn [to_node node2 at_boundary]. destruct (node2 e) as [x|] eqn:E; [|destruct cases_b as [(_ & _ & ->)|(X & _)]; [split; [reflexivity|now left]|destruct (X e He E)]].
  split; [|discriminate]. intros B. destruct (not_b x (H x eq_refl) B).
Qed.
Lemma shows_pair : forall p e, In e (edges gv) -> (shows gv p e <-> shows gb p (mv e)).
Proof.
  intros [u x] e He. destruct (l_below _ _ _ LY e He) as [H1 H2]. pose proof (far_b e He) as F. unfold shows, boundary_edge_of. rewrite (l_virtual _ _ _ LY). cbn [fst snd]. destruct x as [v|].
  - split.
    + intros (_ & _ & [[A B]|[A B]]); pose proof (H2 _ B); (split; [apply not_b; congruence|split; [apply not_b; congruence|]]); [left|right]; (split; [exact A|]); cbn [to_node node2]; now rewrite B.
    + intros (A & B & C). split; [intros []|]. split; [intros []|]. cbn [to_node node1 node2 at_boundary] in *. destruct (node2 e) as [y|]; [exact C|]. specialize (proj2 F eq_refl). intros I. destruct C as [[_ C]|[_ C]]; injection C as <-; contradiction.
  - split.
    + intros (_ & [[A B]|[_ []]]). split; [apply not_b; congruence|]. left. split; [exact A|]. apply F. destruct (node2 e) as [y|]; [cbn [at_boundary] in B; rewrite (l_virtual _ _ _ LY) in B; destruct B|reflexivity].
    + intros (_ & [[A B]|[_ B]]); [|destruct (not_b (node1 (mv e)) H1 B)]. split; [intros []|]. left. split; [exact A|]. apply F in B. rewrite B. exact Logic.I.
Qed.
Lemma shown_pair : forall p (Q : R -> Prop), (exists e, In e (edges gv) /\ shows gv p e /\ Q (weight e)) <-> (exists e, In e (edges gb) /\ shows gb p e /\ Q (weight e)).
Proof.
  intros p Q. rewrite (l_edges _ _ _ LY). split.
  - intros (e & He & S & W). exists (mv e). split; [now apply in_map|]. split; [now apply shows_pair|exact W].
  - intros (e' & He & S & W). apply in_map_iff in He as (e & <- & He). exists e. split; [exact He|]. split; [now apply shows_pair|exact W].
Qed.
Lemma compact_pair : compact gv <-> compact gb.
Proof.
  assert (X : forall p, (exists e, In e (edges gv) /\ shows gv p e) <-> (exists e, In e (edges gb) /\ shows gb p e)).
  { intros p. pose proof (shown_pair p (fun _ => True)) as [A B]. split; intros (e & H1 & H2); [destruct A as (f & F1 & F2 & _)|destruct B as (f & F1 & F2 & _)]; eauto. }
  assert (Y : integer_weights gb <-> integer_weights gv) by exact (some_weight (fun w => exists z, w = IZR z)).
  unfold compact. split; (intros [H|[Z H]]; [left|right; split; [now apply Y|]]); (eapply close_covers; [| |exact H]); intros p c; try (intros [A B]; left; split; [now apply X|exact B]).
  - intros (e & A & B & ->). left. destruct (proj1 (shown_pair p (fun w => Rabs (weight e) = Rabs w))) as (f & F1 & F2 & F3); [now exists e|exists f; auto].
  - intros (e & A & B & ->). left. destruct (proj2 (shown_pair p (fun w => Rabs (weight e) = Rabs w))) as (f & F1 & F2 & F3); [now exists e|exists f; auto].
  - intros (e & A & B & ->). left. destruct (proj2 (shown_pair p (fun w => Rabs (weight e) = Rabs w))) as (f & F1 & F2 & F3); [now exists e|exists f; auto].
  - intros (e & A & B & ->). left. destruct (proj1 (shown_pair p (fun w => Rabs (weight e) = Rabs w))) as (f & F1 & F2 & F3); [now exists e|exists f; auto].
Qed.
Lemma shows_edges_pair : forall out F, incl F (edges gv) -> (shows_edges gv out F <-> shows_edges gb out (map mv F)).
Proof.
  intros out F I. assert (X : forall L, incl L (edges gv) -> (Forall2 (shows gv) out L <-> Forall2 (shows gb) out (map mv L))).
  { clear I. revert F. induction out as [|p out IH]; intros _ L I; destruct L as [|e L]; cbn [map]; split; intros H; inversion H; subst; try constructor; try (apply (shows_pair p e); [apply I; now left|assumption]); apply (IH [] L); auto; intros x Hx; apply I; now right. }
  split; intros (L & P & H).
  - exists (map mv L). split; [now apply Permutation_map|]. apply X; [|exact H]. intros x Hx. apply I. exact (Permutation_in _ P Hx).
  - apply Permutation_map_inv in P as (L0 & -> & P). exists L0. split; [now apply Permutation_sym|]. apply X; [|exact H]. intros x Hx. apply I. exact (Permutation_in _ (Permutation_sym P) Hx).
Qed.
Lemma edges_pair : forall P1 P2 evs1 evs2 out, (forall v, In v evs1 <-> P1 v) -> (forall v, In v evs2 <-> P2 v) -> here P1 P2 -> (right_edges gv P1 out <-> right_edges gb P2 out).
Proof.
  intros P1 P2 evs1 evs2 out E1 E2 HH. unfold right_edges. split.
  - intros (e & F & E & S & C & NB). pose proof (here_listed _ _ _ _ HH E E2) as HL. pose proof (proj1 (proj2 C)) as I. exists evs2, (map mv F). split; [exact E2|]. split; [now apply shows_edges_pair|]. split; [now apply (corrects_mv F e evs2 HL)|now apply (near_pair F e evs2 HL)].
  - intros (e & F & E & S & C & NB). pose proof (here_listed _ _ _ _ HH E1 E) as HL. destruct (mv_back F (proj1 (proj2 C))) as (F0 & -> & I0). exists evs1, F0. split; [exact E1|]. split; [now apply shows_edges_pair|]. split; [now apply (corrects_mv F0 evs1 e HL)|now apply (near_pair F0 evs1 e HL)].
Qed.
Lemma joins_pair_mv : forall p Q, (forall v, In v (ends_of p) -> v < n) -> incl Q (edges gv) -> (joins_pair gv p Q <-> joins_pair gb p (map mv Q)).
Proof.
  intros p Q HP I. assert (HH : here (fun v => In v (ends_of p)) (fun v => In v (ends_of p))) by (split; [intros v _; reflexivity|]; split; [exact HP|]; intros v Hv; apply HP in Hv; destruct cases_b as [(_ & -> & _)|(_ & -> & _)]; lia).
  pose proof (corrects_mv Q _ _ HH I) as CM. unfold joins_pair, ends_of in *. destruct (snd p) as [b|]; [|exact CM]. rewrite CM. apply and_iff_compat_l. split.
  - intros H e' He. apply in_map_iff in He as (e & <- & He). destruct (H e He) as [_ H']. split; [apply not_b; exact (proj1 (l_below _ _ _ LY e (I e He)))|]. rewrite (far_b e (I e He)). intros Z. apply H'. now rewrite Z.
  - intros H e He. rewrite (l_virtual _ _ _ LY). split; [intros []|]. intros A. destruct (H (mv e) (in_map mv _ _ He)) as [_ H']. apply H', far_b; [now apply I|]. destruct (node2 e) as [x|]; [|reflexivity]. cbn [at_boundary] in A. rewrite (l_virtual _ _ _ LY) in A. destruct A.
Qed.
Lemma joins_all : forall out Qs, (forall v, In v (flat_map ends_of out) -> v < n) -> Forall2 (joins_pair gv) out Qs -> Forall2 (joins_pair gb) out (map (map mv) Qs).
Proof.
  intros out Qs HV H. induction H as [|p Q out Qs HJ H IH]; cbn [map]; constructor.
  - apply (joins_pair_mv p Q); [intros v Hv; apply HV; cbn [flat_map]; apply in_or_app; now left| |exact HJ]. unfold joins_pair in HJ. destruct (snd p); apply HJ.
  - apply IH. intros v Hv. apply HV. cbn [flat_map]. apply in_or_app. now right.
Qed.
Lemma joins_back : forall out Qs, (forall v, In v (flat_map ends_of out) -> v < n) -> Forall2 (joins_pair gb) out Qs -> exists Qs0, Qs = map (map mv) Qs0 /\ Forall2 (joins_pair gv) out Qs0.
Proof.
  intros out Qs HV H. induction H as [|p Q out Qs HJ H IH]; [exists []; split; [reflexivity|constructor]|].
  destruct IH as (Qs0 & -> & IH); [intros v Hv; apply HV; cbn [flat_map]; apply in_or_app; now right|].
  assert (I : incl Q (edges gb)) by (unfold joins_pair in HJ; destruct (snd p); apply HJ). destruct (mv_back Q I) as (Q0 & -> & I0). exists (Q0 :: Qs0). split; [reflexivity|]. constructor; [|exact IH].
  apply (joins_pair_mv p Q0); [intros v Hv; apply HV; cbn [flat_map]; apply in_or_app; now left|exact I0|exact HJ].
Qed.
Lemma pairs_pair : forall P1 P2 evs1 evs2 out, (forall v, In v evs1 <-> P1 v) -> (forall v, In v evs2 <-> P2 v) -> here P1 P2 -> (right_pairs gv P1 out <-> right_pairs gb P2 out).
Proof.
  intros P1 P2 evs1 evs2 out E1 E2 HH. unfold right_pairs. apply and_iff_compat_l.
  assert (X : forall v, P1 v /\ ~ In v (bnodes gv) <-> P2 v /\ ~ In v (bnodes gb)).
  { intros v. rewrite (l_virtual _ _ _ LY). pose proof HH as (HB & H1 & H2). split.
    - intros [A _]. pose proof (H1 v A) as L. split; [now apply HB|now apply not_b].
    - intros [A B]. split; [|intros []]. pose proof (H2 v A) as L. apply HB; [|exact A]. destruct cases_b as [(_ & E & F)|(_ & E & F)]; [|lia]. rewrite F in B. destruct (Nat.eq_dec v n) as [->|]; [destruct B; now left|lia]. }
  split; intros [H (evs & Qs & E & J & NB)].
  - split; [intros v; rewrite H; apply X|]. exists evs2, (map (map mv) Qs). split; [exact E2|]. split; [apply joins_all; [|exact J]; intros v Hv; apply H in Hv; now apply HH|]. rewrite <- concat_map. now apply (near_pair (concat Qs) evs evs2 (here_listed _ _ _ _ HH E E2)).
  - split; [intros v; rewrite H; symmetry; apply X|]. destruct (joins_back out Qs) as (Qs0 & -> & J0); [intros v Hv; apply H, X in Hv; now apply HH|exact J|]. exists evs1, Qs0. split; [exact E1|]. split; [exact J0|].
    rewrite <- concat_map in NB. now apply (near_pair (concat Qs0) evs1 evs (here_listed _ _ _ _ HH E1 E)).
Qed.
Lemma dict_pair : forall P1 P2 evs1 evs2 t, (forall v, In v evs1 <-> P1 v) -> (forall v, In v evs2 <-> P2 v) -> here P1 P2 -> (right_dict gv P1 t <-> right_dict gb P2 t).
Proof. intros P1 P2 evs1 evs2 t E1 E2 HH. unfold right_dict. split; intros (out & R & D); exists out; (split; [|exact D]); now apply (pairs_pair P1 P2 evs1 evs2 out E1 E2 HH). Qed.
(** What may be asked about is at nodes that there are. *)
Lemma askable_range : forall g P v, (forall e, In e (edges g) -> node1 e < num_nodes g /\ forall x, node2 e = Some x -> x < num_nodes g) -> (forall x, In x (bnodes g) -> x < num_nodes g) -> askable g P -> P v -> v < num_nodes g.
Proof.
  intros g P v HN HB [(evs & F & E & (_ & I & C) & _)|[_ H]] HP; [|now apply H]. destruct (in_dec Nat.eq_dec v (bnodes g)) as [B|B]; [now apply HB|].
  apply E, C in HP; [|exact B]. apply odd_touches in HP as (e & He & Ht). destruct (HN e (I e He)) as [H1 H2]. unfold edge_ends in Ht. destruct (Nat.eqb_spec (node1 e) v); [lia|]. destruct (node2 e) as [x|]; [|lia]. specialize (H2 x eq_refl). destruct (Nat.eqb_spec x v); lia.
Qed.
Lemma range_v : forall P v, askable gv P -> P v -> v < n.
Proof.
  intros P v A HP. rewrite <- (l_nodes _ _ _ LY). apply (askable_range gv P v); [|rewrite (l_virtual _ _ _ LY); intros x []|exact A|exact HP]. rewrite (l_nodes _ _ _ LY). apply (l_below _ _ _ LY).
Qed.
Lemma range_b : forall P v, askable gb P -> P v -> v < num_nodes gb.
Proof.
  intros P v A HP. apply (askable_range gb P v); [| |exact A|exact HP]; destruct (classic (exists e, In e (edges gv) /\ node2 e = None)) as [Q|Q].
  - intros e He. destruct (l_with _ _ _ LY Q) as [-> _]. rewrite (l_edges _ _ _ LY) in He. apply in_map_iff in He as (e0 & <- & He). destruct (l_below _ _ _ LY e0 He) as [H1 H2]. unfold to_node; cbn [node1 node2]. split; [lia|]. intros x [= <-]. destruct (node2 e0) as [y|]; [specialize (H2 y eq_refl)|]; lia.
  - intros e He. destruct (l_without _ _ _ LY Q) as [-> _]. rewrite (l_edges _ _ _ LY), (lone_none Q _ (incl_refl _)) in He. exact (l_below _ _ _ LY e He).
  - destruct (l_with _ _ _ LY Q) as [-> ->]. intros x [<-|[]]. lia.
  - destruct (l_without _ _ _ LY Q) as [_ ->]. intros x [].
Qed.
Lemma asked_askable : forall g c Ps, fair g c -> asks_weights g c Ps -> Forall (askable g) Ps.
Proof.
  intros g [x|z|ps pp [l|nc shots|]|z|z|z] Ps HF H; try (destruct H; fail); destruct H as [HA ->]; cbn [fair] in HF; specialize (HF HA).
  - constructor; [apply HF|constructor].
  - destruct HF as [_ HF]. clear -HF. induction HF; cbn [map]; constructor; assumption.
Qed.
Lemma pair_weights : forall m1 m2 c1 c2 Ps1 Ps2, fits m1 gv -> fits m2 gb -> fair gv c1 -> fair gb c2 -> asks_weights gv c1 Ps1 -> asks_weights gb c2 Ps2 -> Forall2 (events_below n) Ps1 Ps2 ->
  exists K m1' r1 m2' r2, (forall fuel, K <= fuel -> mstep fuel cyclic_ints m1 c1 = Ok (m1', r1) /\ mstep fuel cyclic_ints m2 c2 = Ok (m2', r2)) /\ right gv c1 r1 /\ right gb c2 r2 /\ weights_told r1 = weights_told r2.
Proof.
  intros m1 m2 c1 c2 Ps1 Ps2 FT1 FT2 HF1 HF2 W1 W2 SE. destruct (ask_told m1 gv c1 Ps1 FT1 HF1 W1) as (K1 & m1' & r1 & A1 & RA & A2). destruct (ask_told m2 gb c2 Ps2 FT2 HF2 W2) as (K2 & m2' & r2 & B1 & RB & B2).
  exists (Nat.max K1 K2), m1', r1, m2', r2. split; [intros; split; [apply A1; lia|apply B1; lia]|]. split; [exact RA|]. split; [exact RB|].
  pose proof (asked_askable gv c1 Ps1 HF1 W1) as K1'. pose proof (asked_askable gb c2 Ps2 HF2 W2) as K2'. pose proof (asked_listed gv c1 Ps1 W1) as L1. pose proof (asked_listed gb c2 Ps2 W2) as L2.
  assert (HS : Forall2 here Ps1 Ps2).
  { clear -SE K1' K2' LY. induction SE as [|P1 P2 l1 l2 H _ IH]; [constructor|]. inversion K1' as [|? ? HA KA]; subst. inversion K2' as [|? ? HB KB]; subst. constructor; [|now apply IH]. split; [exact H|]. split; [intros v; now apply range_v|intros v; now apply range_b]. }
  assert (T1 : forall P ws Ps, Forall2 (told gv) Ps ws -> In P Ps -> solvable gv P) by (clear; intros P ws Ps H; induction H as [|P0 w Ps ws (c & evs & F & _ & E & H & _) _ IH]; intros []; [subst; now exists evs, F|auto]).
  assert (T2 : forall P ws Ps, Forall2 (told gb) Ps ws -> In P Ps -> solvable gb P) by (clear; intros P ws Ps H; induction H as [|P0 w Ps ws (c & evs & F & _ & E & H & _) _ IH]; intros []; [subst; now exists evs, F|auto]).
  assert (SV : Forall2 (fun P1 P2 => solvable gv P1 <-> solvable gb P2) Ps1 Ps2).
  { clear -HS L1 L2 LY. induction HS as [|P1 P2 l1 l2 H _ IH]; [constructor|]. inversion L1 as [|? ? (e1 & _ & E1) KA]; subst. inversion L2 as [|? ? (e2 & _ & E2) KB]; subst. constructor; [|now apply IH]. exact (solvable_pair P1 P2 e1 e2 E1 E2 H). }
  assert (IN : forall P1, In P1 Ps1 -> exists P2, In P2 Ps2 /\ (solvable gv P1 <-> solvable gb P2)) by (clear -SV; induction SV as [|a b l1 l2 H _ IH]; intros P1 []; [subst; exists b; split; [now left|exact H]|]; destruct (IH P1 H0) as (P2 & Q1 & Q2); exists P2; split; [now right|exact Q2]).
  assert (IN2 : forall P2, In P2 Ps2 -> exists P1, In P1 Ps1 /\ (solvable gv P1 <-> solvable gb P2)) by (clear -SV; induction SV as [|a b l1 l2 H _ IH]; intros P2 []; [subst; exists a; split; [now left|exact H]|]; destruct (IH P2 H0) as (P1 & Q1 & Q2); exists P1; split; [now right|exact Q2]).
  destruct (weights_told r1) as [ws1|], (weights_told r2) as [ws2|]; [| | |reflexivity].
  - f_equal. clear -A2 B2 HS LY. revert ws1 ws2 A2 B2. induction HS as [|P1 P2 l1 l2 HP _ IH]; intros ws1 ws2 A2 B2; inversion A2; inversion B2; subst; [reflexivity|]. f_equal; [|auto]. eapply told_pair; eassumption.
  - exfalso. apply Exists_exists in B2 as (P2 & I & NS). apply NS. destruct (IN2 P2 I) as (P1 & I' & S). apply S. exact (T1 P1 ws1 Ps1 A2 I').
  - exfalso. apply Exists_exists in A2 as (P1 & I & NS). apply NS. destruct (IN P1 I) as (P2 & I' & S). apply S. exact (T2 P2 ws2 Ps2 B2 I').
Qed.
End Pair.

Notation tms tws := (match tws with Some t => t | None => [] end).
Section Matrix.
Variables (rows reps nf : nat) (cols faults : list (list nat)) (ws ps : list R) (s : strategy) (tws mes : option (list R)) (gv gb : ugraph RN) (M : R).
Hypothesis LV : load_check_matrix (N := RN) rows cols faults nf ws ps s true reps tws mes = Ok gv.
Hypothesis LB : load_check_matrix (N := RN) rows cols faults nf ws ps s false reps tws mes = Ok gb.
Hypothesis SM : sound_matrix rows reps cols faults ws (tms tws) s nf M.
Lemma layout : same_layout (rows * reps) gv gb.
Proof using LV LB SM. pose proof (load_sim (N := RN) rows cols faults nf ws ps s reps tws mes (proj1 SM)) as H. rewrite LV, LB in H. exact H. Qed.
Lemma matrix_pair : forall c1 c2 Ps1 Ps2, fair gv c1 -> fair gb c2 -> asks_weights gv c1 Ps1 -> asks_weights gb c2 Ps2 -> Forall2 (events_below (rows * reps)) Ps1 Ps2 ->
  exists K m1 r1 m2 r2, (forall fuel, K <= fuel -> mstep fuel cyclic_ints (new_matching gv) c1 = Ok (m1, r1) /\ mstep fuel cyclic_ints (new_matching gb) c2 = Ok (m2, r2)) /\ right gv c1 r1 /\ right gb c2 r2 /\ weights_told r1 = weights_told r2.
Proof using LV LB SM.
  intros c1 c2 Ps1 Ps2. pose proof (matrix_fits rows reps nf cols faults ws ps s true tws mes gv M LV SM) as F1. pose proof (matrix_fits rows reps nf cols faults ws ps s false tws mes gb M LB SM) as F2.
  exact (pair_weights (rows * reps) gv gb layout _ _ c1 c2 Ps1 Ps2 F1 F2).
Qed.
Lemma matrix_here : forall z1 z2, accepted gv z1 -> accepted gb z2 -> events_below (rows * reps) (event_at z1) (event_at z2) ->
  here (rows * reps) gb (event_at z1) (event_at z2) /\ exists e1 e2, (forall v, In v e1 <-> event_at z1 v) /\ forall v, In v e2 <-> event_at z2 v.
Proof using LV LB SM.
  intros z1 z2 A1 A2 HE. destruct (events_in_ok gv z1 A1) as (e1 & _ & _ & E1). destruct (events_in_ok gb z2 A2) as (e2 & _ & _ & E2). split; [|now exists e1, e2].
  split; [exact HE|]. split; [|intros v; exact (accepted_range rows reps nf cols faults ws ps s false tws mes gb M LB SM z2 v A2)].
  intros v Hv. pose proof (accepted_range rows reps nf cols faults ws ps s true tws mes gv M LV SM z1 v A1 Hv) as H. now rewrite (l_nodes _ _ _ layout) in H.
Qed.
Lemma matrix_right : forall z1 z2, accepted gv z1 -> accepted gb z2 -> events_below (rows * reps) (event_at z1) (event_at z2) ->
  (solvable gv (event_at z1) <-> solvable gb (event_at z2)) /\
  (forall row w, right_row gv (event_at z1) row w <-> right_row gb (event_at z2) row w) /\ (forall out, right_edges gv (event_at z1) out <-> right_edges gb (event_at z2) out) /\
  (forall out, right_pairs gv (event_at z1) out <-> right_pairs gb (event_at z2) out) /\ forall t, right_dict gv (event_at z1) t <-> right_dict gb (event_at z2) t.
Proof using LV LB SM.
  intros z1 z2 A1 A2 HE. destruct (matrix_here z1 z2 A1 A2 HE) as (HH & e1 & e2 & E1 & E2). pose proof layout as LY. split; [exact (solvable_pair _ gv gb LY _ _ e1 e2 E1 E2 HH)|].
  split; [intros; exact (row_pair _ gv gb LY _ _ e1 e2 _ _ E1 E2 HH)|]. split; [intros; exact (edges_pair _ gv gb LY _ _ e1 e2 _ E1 E2 HH)|]. split; intros; [exact (pairs_pair _ gv gb LY _ _ e1 e2 _ E1 E2 HH)|exact (dict_pair _ gv gb LY _ _ e1 e2 _ E1 E2 HH)].
Qed.
Lemma matrix_compact : compact gv <-> compact gb.
Proof using LV LB SM. exact (compact_pair _ gv gb layout). Qed.
Lemma matrix_decode : forall z1 z2, accepted gv z1 -> accepted gb z2 -> events_below (rows * reps) (event_at z1) (event_at z2) -> rows * reps < 64 \/ compact gv ->
  exists K m1 m2, (exists row1 row2 w, (forall fuel, K <= fuel -> mstep fuel cyclic_ints (new_matching gv) (AskDecode z1) = Ok (m1, Row row1 w) /\ mstep fuel cyclic_ints (new_matching gb) (AskDecode z2) = Ok (m2, Row row2 w)) /\
      right_row gv (event_at z1) row1 w /\ right_row gv (event_at z1) row2 w) \/
    (forall fuel, K <= fuel -> mstep fuel cyclic_ints (new_matching gv) (AskDecode z1) = Ok (m1, Raised) /\ mstep fuel cyclic_ints (new_matching gb) (AskDecode z2) = Ok (m2, Raised)).
Proof using LV LB SM.
  intros z1 z2 A1 A2 HE HC. assert (C1 : compact gv) by (destruct HC as [H|H]; [exact (matrix_few rows reps nf cols faults ws ps s true tws mes gv M LV SM H)|exact H]). pose proof (proj1 matrix_compact C1) as C2.
  destruct (matrix_pair (AskDecode z1) (AskDecode z2) [event_at z1] [event_at z2]) as (K & m1 & r1 & m2 & r2 & S & R1 & R2 & W).
  - intros _. split; [exact (matrix_usable rows reps nf cols faults ws ps s true tws mes gv M LV SM)|]. right. split; [exact C1|]. intros v. exact (accepted_range rows reps nf cols faults ws ps s true tws mes gv M LV SM z1 v A1).
  - intros _. split; [exact (matrix_usable rows reps nf cols faults ws ps s false tws mes gb M LB SM)|]. right. split; [exact C2|]. intros v. exact (accepted_range rows reps nf cols faults ws ps s false tws mes gb M LB SM z2 v A2).
  - split; [exact A1|reflexivity].
  - split; [exact A2|reflexivity].
  - constructor; [exact HE|constructor].
  - exists K, m1, m2. destruct R1 as (R1 & R1' & _). destruct R2 as (R2 & R2' & _).
    destruct (classic (solvable gv (event_at z1))) as [X|X]; [destruct (R1 A1 X) as (row1 & w1 & -> & Q1)|rewrite (R1' A1 X) in *]; (destruct (classic (solvable gb (event_at z2))) as [Y|Y]; [destruct (R2 A2 Y) as (row2 & w2 & -> & Q2)|rewrite (R2' A2 Y) in *]); cbn [weights_told] in W; try discriminate.
    + injection W as <-. left. exists row1, row2, w1. split; [exact S|]. split; [exact Q1|]. apply (matrix_right z1 z2 A1 A2 HE). exact Q2.
    + right. exact S.
Qed.
End Matrix.
