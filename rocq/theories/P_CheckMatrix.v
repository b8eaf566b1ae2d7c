(** Check-matrix loading and sampled noise: proofs. *)
From Coq Require Import Arith List Bool Lia.
From Verif Require Import M_Base M_UserGraph S_UserGraph P_UserGraph S_GraphMap P_GraphMap M_CheckMatrix S_CheckMatrix.
Import ListNotations.

Section Proofs.
Context {N : numops}.

(** *** noise *)
Lemma flip_ok : forall l i, i < length l -> exists l', flip l i = Ok l' /\ length l' = length l /\
  forall k, nth k l' false = if k =? i then negb (nth k l false) else nth k l false.
Proof.
  induction l as [|b l IH]; intros i Hi; cbn in Hi; [lia|]. destruct i as [|i]; cbn [flip].
  - eexists. split; [reflexivity|]. split; [reflexivity|]. intros [|k]; reflexivity.
  - destruct (IH i) as (l' & -> & L & H); [lia|]. cbn [bindO]. eexists. split; [reflexivity|]. split; [cbn; lia|].
    intros [|k]; [reflexivity|]. cbn. apply H.
Qed.

Lemma clear_ok : forall l i, i < length l -> exists l', clear_at l i = Ok l' /\ length l' = length l /\
  forall k, nth k l' false = if k =? i then false else nth k l false.
Proof.
  induction l as [|b l IH]; intros i Hi; cbn in Hi; [lia|]. destruct i as [|i]; cbn [clear_at].
  - eexists. split; [reflexivity|]. split; [reflexivity|]. intros [|k]; reflexivity.
  - destruct (IH i) as (l' & -> & L & H); [lia|]. cbn [bindO]. eexists. split; [reflexivity|]. split; [cbn; lia|].
    intros [|k]; [reflexivity|]. cbn. apply H.
Qed.

Lemma foldO_cons : forall {A B} (f : A -> B -> outcome A) b l a, foldO f (b :: l) a = bindO (f a b) (foldO f l).
Proof.
  intros. unfold foldO. cbn [fold_left bindO]. destruct (f a b) as [a'| | |]; cbn [bindO]; [reflexivity| | |];
    (induction l as [|c l IH]; [reflexivity|exact IH]).
Qed.

Lemma odd_count_cons : forall k i l, odd_count k (i :: l) = xorb (k =? i) (odd_count k l).
Proof.
  intros. unfold odd_count. cbn [count_occ]. destruct (Nat.eq_dec i k) as [->|H].
  - rewrite Nat.eqb_refl, Nat.odd_succ, <- Nat.negb_odd. destruct (Nat.odd _); reflexivity.
  - destruct (Nat.eqb_spec k i); [congruence|]. destruct (Nat.odd _); reflexivity.
Qed.

Lemma odd_count_app : forall k l l', odd_count k (l ++ l') = xorb (odd_count k l) (odd_count k l').
Proof. induction l as [|i l IH]; intros l'; [cbn [app]; symmetry; apply xorb_false_l|]. cbn [app]. rewrite !odd_count_cons, IH, xorb_assoc. reflexivity. Qed.

Lemma flips_ok : forall is l, (forall i, In i is -> i < length l) -> exists l', foldO flip is l = Ok l' /\ length l' = length l /\
  forall k, nth k l' false = xorb (odd_count k is) (nth k l false).
Proof.
  induction is as [|i is IH]; intros l H.
  - exists l. split; [reflexivity|]. split; [reflexivity|]. intros k. destruct (nth k l false); reflexivity.
  - rewrite foldO_cons. destruct (flip_ok l i) as (l1 & -> & L1 & H1); [apply H; left; reflexivity|]. cbn [bindO].
    destruct (IH l1) as (l2 & -> & L2 & H2); [intros j Hj; rewrite L1; apply H; right; exact Hj|].
    exists l2. split; [reflexivity|]. split; [lia|]. intros k. rewrite H2, H1, odd_count_cons.
    destruct (k =? i), (odd_count k is), (nth k l false); reflexivity.
Qed.

Lemma clears_ok : forall is l, (forall i, In i is -> i < length l) -> exists l', foldO clear_at is l = Ok l' /\ length l' = length l /\
  forall k, nth k l' false = if existsb (Nat.eqb k) is then false else nth k l false.
Proof.
  induction is as [|i is IH]; intros l H.
  - exists l. auto.
  - rewrite foldO_cons. destruct (clear_ok l i) as (l1 & -> & L1 & H1); [apply H; left; reflexivity|]. cbn [bindO].
    destruct (IH l1) as (l2 & -> & L2 & H2); [intros j Hj; rewrite L1; apply H; right; exact Hj|].
    exists l2. split; [reflexivity|]. split; [lia|]. intros k. rewrite H2, H1. cbn [existsb].
    destruct (k =? i), (existsb (Nat.eqb k) is); reflexivity.
Qed.

Lemma noise_edge_ok : forall errs syn (e : uedge N) (hit : bool),
  (forall o, In o (obs e) -> o < length errs) -> (forall v, In v (ends e) -> v < length syn) ->
  exists errs' syn', noise_edge (errs, syn) (e, hit) = Ok (errs', syn') /\ length errs' = length errs /\ length syn' = length syn /\
   (forall k, nth k errs' false = xorb (if hit then odd_count k (obs e) else false) (nth k errs false)) /\
   (forall k, nth k syn' false = xorb (if hit then odd_count k (ends e) else false) (nth k syn false)).
Proof.
  intros errs syn e hit HO HE. cbn [noise_edge]. destruct hit.
  - destruct (flips_ok (obs e) errs HO) as (errs' & -> & L & H). cbn [bindO].
    destruct (flips_ok (ends e) syn HE) as (syn' & Hf & L' & H').
    unfold ends in Hf. rewrite foldO_cons in Hf. destruct (flip syn (node1 e)) as [s1| | |]; cbn [bindO] in Hf |- *; try discriminate.
    destruct (node2 e) as [v|] eqn:E2.
    + rewrite foldO_cons in Hf. destruct (flip s1 v) as [s2| | |]; cbn [bindO] in Hf |- *; try discriminate.
      injection Hf as <-. exists errs', s2. auto.
    + injection Hf as <-. exists errs', s1. auto.
  - exists errs, syn. repeat split; intros k; [destruct (nth k errs false)|destruct (nth k syn false)]; reflexivity.
Qed.

Lemma xor3 : forall a b c, xorb b (xorb a c) = xorb (xorb a b) c.
Proof. intros [] [] []; reflexivity. Qed.

Lemma noise_edges_ok : forall (es : list (uedge N * bool)) errs syn,
  (forall e b o, In (e, b) es -> In o (obs e) -> o < length errs) -> (forall e b v, In (e, b) es -> In v (ends e) -> v < length syn) ->
  exists errs' syn', foldO noise_edge es (errs, syn) = Ok (errs', syn') /\ length errs' = length errs /\ length syn' = length syn /\
   (forall k, nth k errs' false = xorb (odd_count k (flat_map obs (map fst (filter snd es)))) (nth k errs false)) /\
   (forall k, nth k syn' false = xorb (odd_count k (flat_map ends (map fst (filter snd es)))) (nth k syn false)).
Proof.
  induction es as [|[e hit] es IH]; intros errs syn HO HE.
  - exists errs, syn. repeat split; intros k; [destruct (nth k errs false)|destruct (nth k syn false)]; reflexivity.
  - rewrite foldO_cons.
    destruct (noise_edge_ok errs syn e hit) as (e1 & s1 & -> & L1 & L2 & H1 & H2).
    { intros o. eapply HO. left. reflexivity. } { intros v. eapply HE. left. reflexivity. }
    cbn [bindO]. destruct (IH e1 s1) as (e2 & s2 & -> & L3 & L4 & H3 & H4).
    { intros e' b o Hin. rewrite L1. eapply HO. right. exact Hin. } { intros e' b v Hin. rewrite L2. eapply HE. right. exact Hin. }
    exists e2, s2. split; [reflexivity|]. split; [lia|]. split; [lia|]. cbn [filter snd]. destruct hit; cbn [map fst flat_map].
    + split; intros k; rewrite ?H3, ?H4, ?H1, ?H2, odd_count_app; apply xor3.
    + split; intros k; rewrite ?H3, ?H4, ?H1, ?H2; rewrite xorb_false_l; reflexivity.
Qed.

Lemma bnodes_in_range : forall ops (g : ugraph N), Inv g -> (forall b, In b (bnodes g) -> b < num_nodes g) ->
  forall b, In b (bnodes (run g ops)) -> b < num_nodes (run g ops).
Proof.
  induction ops as [|x ops IH]; intros g HI H; [exact H|]. change (run g (x :: ops)) with (run (apply_op g x) ops).
  apply IH; [apply apply_op_inv; exact HI|]. pose proof (step_nodes g x HI) as HL. unfold num_nodes in *.
  destruct x as [u v o w p s|bs|n]; cbn [apply_op] in *.
  - assert (E : bnodes (fst (py_add g u v o w p s)) = bnodes g).
    { unfold py_add. destruct (w_exceeds N w); [reflexivity|]. apply (call_effect g (mkCall u v o w p s) HI). }
    rewrite E. intros b Hb. apply H in Hb. lia.
  - intros b Hb. cbn [set_boundary bnodes] in Hb. destruct (set_boundary_props g bs) as (_ & _ & _ & L & _). rewrite L.
    assert (b < nodes_needed (N := N) (OpSetBoundary bs)); [|lia]. clear -Hb. cbn [nodes_needed].
    induction bs as [|u bs IHb]; [destruct Hb|]. cbn [fold_right]. destruct Hb as [<-|Hb]; [lia|]. specialize (IHb Hb). lia.
  - exact H.
Qed.

Lemma noise_consistent : forall n k ops draws, let g := run (new_graph N n k) ops in
  allp g = true -> fault_ids_in_range g -> length draws = length (edges g) ->
  exists errs syn, add_noise g draws = Ok (errs, syn) /\ length errs = nobs g /\ length syn = num_nodes g /\
    (forall i, i < nobs g -> nth i errs false = odd_count i (flat_map obs (flipped g draws))) /\
    (forall v, v < num_nodes g -> nth v syn false = if existsb (Nat.eqb v) (bnodes g) then false
                                  else odd_count v (flat_map ends (flipped g draws))).
Proof.
  intros n k ops draws g Ha HF HL. unfold add_noise. rewrite Ha. cbn [negb].
  assert (HI : Inv g) by (apply run_inv; apply new_inv).
  assert (HB : forall b, In b (bnodes g) -> b < num_nodes g) by (apply bnodes_in_range; [apply new_inv|intros ? []]).
  destruct (noise_edges_ok (combine (edges g) draws) (repeat false (nobs g)) (repeat false (num_nodes g))) as (e1 & s1 & -> & L1 & L2 & H1 & H2).
  { intros e b o Hin Ho. rewrite repeat_length. apply in_combine_l in Hin. eapply HF; eauto. }
  { intros e b v Hin Hv. rewrite repeat_length. apply in_combine_l in Hin. destruct HI as (_ & HN & _). destruct (HN e Hin) as [A B].
    unfold ends in Hv. destruct Hv as [<-|Hv]; [exact A|]. destruct (node2 e) as [w|]; [|destruct Hv]. destruct Hv as [<-|[]]. apply B. reflexivity. }
  rewrite repeat_length in L1, L2. cbn [bindO].
  destruct (clears_ok (bnodes g) s1) as (s2 & -> & L3 & H3); [intros b Hb; rewrite L2; apply HB; exact Hb|]. cbn [bindO].
  exists e1, s2. split; [reflexivity|]. split; [exact L1|]. split; [lia|]. split.
  - intros i Hi. rewrite H1, nth_repeat, xorb_false_r. reflexivity.
  - intros v Hv. rewrite H3, H2, nth_repeat, xorb_false_r. reflexivity.
Qed.

Lemma noise_off : forall (g : ugraph N) draws, allp g = false -> add_noise g draws = Ok (repeat false (nobs g), repeat false (num_nodes g)).
Proof. intros. unfold add_noise. rewrite H. reflexivity. Qed.

(** *** check matrix *)
Definition col_calls (rows reps : nat) (virtual : bool) (s : strategy) (t : nat) (c : column (N := N)) : list (call N) :=
  let '(rs, fs, w, p) := c in
  match layer_pair rows reps virtual t rs with
  | Some (u, v) => [mkCall u v fs w p s]
  | None => []
  end.

Definition time_calls (rows : nat) (s : strategy) (t : nat) (x : nat * (num N * num N)) : list (call N) :=
  let '(row, (w, p)) := x in [mkCall (t * rows + row) (Some (S t * rows + row)) [] w p s].

Definition Okc (g0 : ugraph N) (cs : list (call N)) (r : outcome (ugraph N)) : Prop :=
  r = Throw \/ r = Ok (do_calls g0 cs).

Lemma addO_spec : forall g0 cs r u v o w p s, Okc g0 cs r -> Okc g0 (cs ++ [mkCall u v o w p s]) (addO r u v o w p s).
Proof.
  intros g0 cs r u v o w p s [-> | ->]; [left; reflexivity|]. unfold addO. cbn [bindO].
  destruct (add_or_merge (do_calls g0 cs) u v o w p s) as [g' threw] eqn:E. destruct threw; [left; reflexivity|]. right.
  f_equal. unfold do_calls at 1. rewrite fold_left_app. fold (do_calls g0 cs). cbn [fold_left]. unfold do_call. cbn [c_u c_v c_obs c_w c_p c_s]. rewrite E. reflexivity.
Qed.

Lemma load_column_spec : forall rows reps rep virtual s c g0 cs r, Okc g0 cs r ->
  Okc g0 (cs ++ col_calls rows reps virtual s rep c) (load_column rows reps rep virtual s r c).
Proof.
  intros rows reps rep virtual s [[[rs fs] w] p] g0 cs r H. cbn [load_column col_calls].
  destruct rs as [|r1 [|r2 [|r3 rs]]]; cbn [layer_pair].
  - rewrite app_nil_r. exact H.
  - destruct virtual.
    + replace (rep * rows + r1) with (r1 + rows * rep) by lia. apply addO_spec. exact H.
    + replace (rep * rows + r1) with (r1 + rows * rep) by lia. replace (reps * rows) with (rows * reps) by lia. apply addO_spec. exact H.
  - replace (rep * rows + r1) with (r1 + rows * rep) by lia. replace (rep * rows + r2) with (r2 + rows * rep) by lia. apply addO_spec. exact H.
  - left. destruct H as [-> | ->]; reflexivity.
Qed.

Lemma load_columns_spec : forall rows reps rep virtual s cols g0 cs r, Okc g0 cs r ->
  Okc g0 (cs ++ flat_map (col_calls rows reps virtual s rep) cols) (fold_left (load_column rows reps rep virtual s) cols r).
Proof.
  induction cols as [|c cols IH]; intros g0 cs r H; cbn [fold_left flat_map].
  - rewrite app_nil_r. exact H.
  - rewrite app_assoc. apply IH. apply load_column_spec. exact H.
Qed.

Lemma load_layers_spec : forall rows reps virtual s cols ts g0 cs r, Okc g0 cs r ->
  Okc g0 (cs ++ flat_map (fun t => flat_map (col_calls rows reps virtual s t) cols) ts)
     (fold_left (fun g rep => fold_left (load_column rows reps rep virtual s) cols g) ts r).
Proof.
  induction ts as [|t ts IH]; intros g0 cs r H; cbn [fold_left flat_map].
  - rewrite app_nil_r. exact H.
  - rewrite app_assoc. apply IH. apply load_columns_spec. exact H.
Qed.

Lemma load_time_spec : forall rows s ts xs g0 cs r, Okc g0 cs r ->
  Okc g0 (cs ++ flat_map (fun t => flat_map (time_calls rows s t) xs) ts)
     (fold_left (fun g rep => fold_left (load_timelike rows rep s) xs g) ts r).
Proof.
  induction ts as [|t ts IH]; intros xs g0 cs r H; cbn [fold_left flat_map].
  - rewrite app_nil_r. exact H.
  - rewrite app_assoc. apply IH. clear IH. revert cs r H. induction xs as [|[row [w p]] xs IH]; intros cs r H; cbn [fold_left flat_map].
    + rewrite app_nil_r. exact H.
    + rewrite app_assoc. apply IH. cbn [load_timelike time_calls].
      replace (t * rows + row) with (row + t * rows) by lia. replace (S t * rows + row) with (row + (t + 1) * rows) by lia. apply addO_spec. exact H.
Qed.

(** a column with three or more ones makes it throw *)
Lemma fold_throw : forall {B} (f : outcome (ugraph N) -> B -> outcome (ugraph N)) l, (forall b, f Throw b = Throw) -> fold_left f l Throw = Throw.
Proof. induction l as [|b l IH]; intros H; [reflexivity|]. cbn. rewrite H. apply IH. exact H. Qed.

Lemma load_column_throw : forall rows reps rep virtual s c, load_column rows reps rep virtual s (Throw (A := ugraph N)) c = Throw.
Proof. intros rows reps rep virtual s [[[[|r1 [|r2 [|r3 rs]]] fs] w] p]; cbn; try destruct virtual; reflexivity. Qed.

Lemma load_columns_bad : forall rows reps rep virtual s cols g0 cs r rs fs w p, Okc g0 cs r -> In (rs, fs, w, p) cols -> 2 < length rs ->
  fold_left (load_column rows reps rep virtual s) cols r = Throw.
Proof.
  induction cols as [|c cols IH]; intros g0 cs r rs fs w p H Hin HL; [destruct Hin|]. cbn [fold_left]. destruct Hin as [->|Hin].
  - replace (load_column rows reps rep virtual s r (rs, fs, w, p)) with (Throw (A := ugraph N)).
    + apply fold_throw. apply load_column_throw.
    + destruct rs as [|r1 [|r2 [|r3 rs]]]; cbn [length] in HL; try lia. destruct H as [-> | ->]; reflexivity.
  - eapply IH; [apply load_column_spec; exact H|exact Hin|exact HL].
Qed.

Definition zip (cols faults : list (list nat)) (ws ps : list (num N)) : list (column (N := N)) :=
  map (fun '((c, f), (w, p)) => (c, f, w, p)) (combine (combine cols faults) (combine ws ps)).

Definition all_calls (rows : nat) (cs : list (column (N := N))) (s : strategy) (virtual : bool) (reps : nat) (tws mes : list (num N)) : list (call N) :=
  flat_map (fun t => flat_map (col_calls rows reps virtual s t) cs) (seq 0 reps) ++
  (if 1 <? reps then flat_map (fun t => flat_map (time_calls rows s t) (combine (seq 0 rows) (combine tws mes))) (seq 0 (reps - 1)) else []).

Lemma load_check_matrix_calls : forall rows cols faults fr ws ps s virtual reps tws mes g,
  load_check_matrix rows cols faults fr ws ps s virtual reps tws mes = Ok g ->
  length ws = length cols /\ length ps = length cols /\ length faults = length cols /\
  (1 < reps -> exists t m, tws = Some t /\ mes = Some m /\ length t = rows /\ length m = rows) /\
  (0 < reps -> forall c, In c cols -> length c <= 2) /\
  exists t m, (1 < reps -> tws = Some t /\ mes = Some m) /\
  let g2 := do_calls (new_graph N (rows * reps) fr) (all_calls rows (zip cols faults ws ps) s virtual reps t m) in
  g = if negb virtual && (length (nodes g2) =? rows * reps + 1) then set_boundary g2 [rows * reps] else g2.
Proof.
  intros rows cols faults fr ws ps s virtual reps tws mes g H. unfold load_check_matrix in H.
  destruct (Nat.eqb_spec (length ws) (length cols)) as [E1|]; cbn [negb] in H; [|discriminate].
  destruct (Nat.eqb_spec (length ps) (length cols)) as [E2|]; cbn [negb] in H; [|discriminate].
  destruct (Nat.eqb_spec (length cols) (length faults)) as [E3|]; cbn [negb] in H; [|discriminate].
  split; [exact E1|]. split; [exact E2|]. split; [symmetry; exact E3|].
  fold (zip cols faults ws ps) in H. set (cs := zip cols faults ws ps) in *.
  pose proof (load_layers_spec rows reps virtual s cs (seq 0 reps) (new_graph N (rows * reps) fr) [] (Ok (new_graph N (rows * reps) fr)) (or_intror eq_refl)) as H1.
  cbn [app] in H1.
  assert (HC : 0 < reps -> forall c, In c cols -> length c <= 2).
  { intros Hr c Hc. destruct (Nat.le_gt_cases (length c) 2) as [|Hgt]; [assumption|]. exfalso.
    assert (Hz : exists fs w p, In (c, fs, w, p) cs).
    { apply (In_nth _ _ []) in Hc. destruct Hc as (i & Hi & Hci).
      destruct ws as [|w0 ws']; [cbn in E1; lia|]. destruct ps as [|p0 ps']; [cbn in E2; lia|].
      exists (nth i faults []), (nth i (w0 :: ws') w0), (nth i (p0 :: ps') p0). unfold cs, zip. apply in_map_iff.
      exists ((c, nth i faults []), (nth i (w0 :: ws') w0, nth i (p0 :: ps') p0)). split; [reflexivity|].
      rewrite <- Hci at 1. rewrite <- (combine_nth cols faults i [] [] E3).
      rewrite <- (combine_nth (w0 :: ws') (p0 :: ps') i w0 p0) by congruence.
      rewrite <- combine_nth by (rewrite !combine_length; lia).
      apply nth_In. rewrite !combine_length. lia. }
    destruct Hz as (fs & w & p & Hz).
    destruct reps as [|reps]; [lia|]. cbn [seq fold_left] in H.
    rewrite (load_columns_bad rows (S reps) 0 virtual s cs (new_graph N (rows * S reps) fr) [] (Ok (new_graph N (rows * S reps) fr)) c fs w p (or_intror eq_refl) Hz Hgt) in H.
    rewrite fold_throw in H by (intros b; apply fold_throw; apply load_column_throw). cbn [bindO] in H.
    destruct (1 <? S reps); discriminate. }
  destruct (Nat.ltb_spec 1 reps) as [Hr|Hr].
  - destruct tws as [tws|]; [|destruct H1 as [E|E]; rewrite E in H; discriminate].
    destruct mes as [mes|]; [|destruct H1 as [E|E]; rewrite E in H; discriminate].
    set (g1 := fold_left _ (seq 0 reps) _) in *.
    assert (Hb : forall f : outcome (ugraph N), bindO g1 (fun _ => f) = Throw \/ bindO g1 (fun _ => f) = f).
    { intros f. destruct H1 as [-> | ->]; auto. }
    match type of H with bindO (bindO g1 (fun _ => ?F)) _ = _ => destruct (Hb F) as [E|E]; rewrite E in H; [discriminate|] end.
    destruct (Nat.eqb_spec (length tws) rows) as [E4|]; cbn [negb] in H; [|discriminate].
    destruct (Nat.eqb_spec (length mes) rows) as [E5|]; cbn [negb] in H; [|discriminate].
    pose proof (load_time_spec rows s (seq 0 (reps - 1)) (combine (seq 0 rows) (combine tws mes)) _ _ _ H1) as H2.
    destruct H2 as [E6|E6]; rewrite E6 in H; [discriminate|]. cbn [bindO] in H. injection H as <-.
    split; [intros _; exists tws, mes; auto|]. split; [exact HC|]. exists tws, mes. split; [auto|].
    unfold all_calls. rewrite (proj2 (Nat.ltb_lt 1 reps) Hr). reflexivity.
  - destruct H1 as [E|E]; rewrite E in H; [discriminate|]. cbn [bindO] in H. injection H as <-.
    split; [intros; lia|]. split; [exact HC|]. exists [], []. split; [intros; lia|].
    unfold all_calls. replace (1 <? reps) with false by (symmetry; apply Nat.ltb_ge; exact Hr). rewrite app_nil_r. reflexivity.
Qed.

(** exactness when all pairs are distinct *)
Lemma effects_unique : forall (cs : list (call N)) x y a,
  (forall i j c d, nth_error cs i = Some c -> nth_error cs j = Some d ->
     same_pair (c_u c) (c_v c) x y = true -> same_pair (c_u d) (c_v d) x y = true -> i = j) ->
  (effects x y None cs = Some a <-> exists c, In c cs /\ same_pair (c_u c) (c_v c) x y = true /\ a = (c_obs c, c_w c, c_p c)).
Proof.
  assert (Hskip : forall (cs : list (call N)) x y a, (forall c, In c cs -> same_pair (c_u c) (c_v c) x y = false) -> effects x y a cs = a).
  { induction cs as [|c cs IH]; intros x y a H; [reflexivity|]. change (effects x y a (c :: cs)) with (effects x y (effect x y a c) cs).
    unfold effect. rewrite (H c (or_introl eq_refl)). apply IH. intros; apply H; right; assumption. }
  induction cs as [|c cs IH]; intros x y a HU.
  - cbn. split; [discriminate|intros (c & [] & _)].
  - change (effects x y None (c :: cs)) with (effects x y (effect x y None c) cs). unfold effect.
    destruct (same_pair (c_u c) (c_v c) x y) eqn:E.
    + assert (HN : forall d, In d cs -> same_pair (c_u d) (c_v d) x y = false).
      { intros d Hd. destruct (same_pair (c_u d) (c_v d) x y) eqn:E'; [|reflexivity].
        apply In_nth_error in Hd. destruct Hd as [j Hj]. specialize (HU 0 (S j) c d eq_refl Hj E E'). discriminate. }
      rewrite Hskip by exact HN. split.
      * intros H. injection H as <-. exists c. split; [left; reflexivity|auto].
      * intros (d & [<-|Hd] & Hs & ->); [reflexivity|]. rewrite (HN d Hd) in Hs. discriminate.
    + rewrite IH by (intros i j c' d' H1 H2 H3 H4; specialize (HU (S i) (S j) c' d' H1 H2 H3 H4); lia).
      split; intros (d & Hd & Hs & Ha).
      * exists d. split; [right; exact Hd|auto].
      * destruct Hd as [<-|Hd]; [congruence|]. exists d. auto.
Qed.
End Proofs.
