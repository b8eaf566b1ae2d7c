(** Both ways to take a matching apart do the same to the decoder. *)
From Coq Require Import ZArith NArith List Bool Arith Lia.
From Verif Require Import M_Base M_Varying M_Core M_CoreHeap M_Extract.
Import ListNotations.
Local Open Scope nat_scope.

Definition mapO {X Y} (f : X -> Y) (a : outcome X) : outcome Y := bindO a (fun x => Ok (f x)).
(** The observables and the weight, and the match edges, of the joint result. *)
Definition masks_of (res : result) : N * Z := fst res.
Definition edges_of (res : result) : list cedge := snd res.
Lemma masks_add : forall x y, masks_of (res_add x y) = sum (masks_of x) (masks_of y).
Proof. intros [[o w] l] [[o' w'] l']. reflexivity. Qed.
Lemma edges_add : forall x y, edges_of (res_add x y) = edges_of x ++ edges_of y.
Proof. intros [[o w] l] [[o' w'] l']. reflexivity. Qed.
Lemma sum_assoc : forall x y z, sum (sum x y) z = sum x (sum y z).
Proof. intros [o w] [o' w'] [o'' w'']. unfold sum. cbn. now rewrite N.lxor_assoc, Z.add_assoc. Qed.
Lemma sum_0 : forall x, sum (0%N, 0%Z) x = x.
Proof. intros [o w]. reflexivity. Qed.
Lemma sum_r0 : forall x, sum x (0%N, 0%Z) = x.
Proof. intros [o w]. unfold sum. cbn. now rewrite N.lxor_0_r, Z.add_0_r. Qed.

Section Extract.
Variables (fuel : nat) (A : ints).
Definition on_masks (a : N * Z) (x : state * result) : state * (N * Z) := (fst x, sum a (masks_of (snd x))).
Definition on_edges (a : list cedge) (x : state * result) : state * list cedge := (fst x, a ++ edges_of (snd x)).
Definition joint_pairs (rec : state -> nat -> outcome (state * result)) (l : list (nat * nat * cedge)) (acc : outcome (state * result)) : outcome (state * result) :=
  fold_left (fun acc p =>
      bindO acc (fun st =>
      let '(s, res) := (st : state * result) in
      let '(r1, r2, e) := (p : nat * nat * cedge) in
      bindO (rec (add_match s r1 r2 e) r1) (fun y =>
      Ok (fst y, res_add res (snd y))))) l acc.
Lemma joint_stops : forall rec l acc, (forall x, acc <> Ok x) -> joint_pairs rec l acc = acc.
Proof. intros rec. induction l as [|p l IH]; intros acc H; [reflexivity|]. unfold joint_pairs in *. cbn [fold_left]. rewrite IH; destruct acc as [x| | |]; cbn; try reflexivity; try (intros; discriminate); elim (H x); reflexivity. Qed.
Lemma joint_cons : forall rec r1 r2 e l s res, joint_pairs rec ((r1, r2, e) :: l) (Ok (s, res)) = bindO (rec (add_match s r1 r2 e) r1) (fun y => joint_pairs rec l (Ok (fst y, res_add res (snd y)))).
Proof. intros. unfold joint_pairs at 1. cbn [fold_left bindO]. destruct (rec (add_match s r1 r2 e) r1); cbn [bindO]; try reflexivity; apply joint_stops; discriminate. Qed.
Lemma joint_unfold : forall rec s r, pair_and_shatter fuel A rec s r =
  bindO (free_children fuel A s r) (fun x => let '(s2, sub) := x in let cyc := chl (rg s2) r in
    bindO (joint_pairs rec (child_pairs cyc (find_child sub 0 cyc)) (Ok (s2, (0%N, y_intercept (rad (rg s2) r), [])))) (fun z => Ok (del_region (fst z) r, snd z, sub))).
Proof.
  intros rec s r. unfold pair_and_shatter, free_children. destruct (foldS _ _ s) as [s1| | |]; cbn [bindO]; try reflexivity. destruct (deref _) as [v| | |]; cbn [bindO]; try reflexivity. destruct (deref _) as [sub| | |]; reflexivity.
Qed.

Lemma pairs_masks_spec : forall rec recm, (forall s r, recm s r = mapO (on_masks (0%N, 0%Z)) (rec s r)) ->
  forall l s res a, pairs_masks recm l s (sum a (masks_of res)) = mapO (on_masks a) (joint_pairs rec l (Ok (s, res))).
Proof.
  intros rec recm H. induction l as [|[[r1 r2] e] l IH]; intros s res a; [reflexivity|]. cbn [pairs_masks]. rewrite joint_cons, H. unfold mapO. destruct (rec (add_match s r1 r2 e) r1) as [[s1 y]| | |]; cbn [bindO]; try reflexivity.
  change (pairs_masks recm l s1 (sum (sum a (masks_of res)) (sum (0%N, 0%Z) (masks_of y))) = mapO (on_masks a) (joint_pairs rec l (Ok (s1, res_add res y)))). rewrite sum_0, sum_assoc, <- masks_add. apply IH.
Qed.
Lemma shatter_masks_spec : forall rec recm, (forall s r, recm s r = mapO (on_masks (0%N, 0%Z)) (rec s r)) ->
  forall s r a, pair_and_shatter_masks fuel A recm s r a = mapO (fun x : state * result * nat => (on_masks a (fst x), snd x)) (pair_and_shatter fuel A rec s r).
Proof.
  intros rec recm H s r a. rewrite joint_unfold. unfold pair_and_shatter_masks, mapO. destruct (free_children fuel A s r) as [[s2 sub]| | |]; cbn [bindO]; try reflexivity. cbv zeta.
  replace (fst a, (snd a + y_intercept (rad (rg s2) r))%Z) with (sum a (masks_of (0%N, y_intercept (rad (rg s2) r), []))) by (destruct a as [o w]; unfold sum; cbn; now rewrite N.lxor_0_r).
  rewrite (pairs_masks_spec rec recm H). unfold mapO. destruct (joint_pairs rec _ _) as [[s3 res]| | |]; reflexivity.
Qed.
Lemma pairs_edges_spec : forall rec rece, (forall s r a, rece s r a = mapO (on_edges a) (rec s r)) ->
  forall l s res a, pairs_edges rece l s (a ++ edges_of res) = mapO (on_edges a) (joint_pairs rec l (Ok (s, res))).
Proof.
  intros rec rece H. induction l as [|[[r1 r2] e] l IH]; intros s res a; [reflexivity|]. cbn [pairs_edges]. rewrite joint_cons, H. unfold mapO. destruct (rec (add_match s r1 r2 e) r1) as [[s1 y]| | |]; cbn [bindO]; try reflexivity.
  change (pairs_edges rece l s1 ((a ++ edges_of res) ++ edges_of y) = mapO (on_edges a) (joint_pairs rec l (Ok (s1, res_add res y)))). rewrite <- app_assoc, <- edges_add. apply IH.
Qed.
Lemma shatter_edges_spec : forall rec rece, (forall s r a, rece s r a = mapO (on_edges a) (rec s r)) ->
  forall s r a, pair_and_shatter_edges fuel A rece s r a = mapO (fun x : state * result * nat => (on_edges a (fst x), snd x)) (pair_and_shatter fuel A rec s r).
Proof.
  intros rec rece H s r a. rewrite joint_unfold. unfold pair_and_shatter_edges, mapO. destruct (free_children fuel A s r) as [[s2 sub]| | |]; cbn [bindO]; try reflexivity. cbv zeta.
  replace a with (a ++ edges_of (0%N, y_intercept (rad (rg s2) r), [])) at 1 by apply app_nil_r.
  rewrite (pairs_edges_spec rec rece H). unfold mapO. destruct (joint_pairs rec _ _) as [[s3 res]| | |]; reflexivity.
Qed.

Lemma extract_masks_spec : forall k s r, extract_masks fuel A k s r = mapO (on_masks (0%N, 0%Z)) (extract fuel A k s r).
Proof.
  induction k as [|k IH]; intros s r; [reflexivity|]. cbn [extract_masks extract]. cbv zeta. set (s2 := match mreg (ma (cleanup_shell_area s r)) r with None => _ | Some q => _ end). pose proof (shatter_masks_spec _ _ IH) as PS.
  set (pm := pair_and_shatter_masks fuel A (extract_masks fuel A k)) in *. set (pj := pair_and_shatter fuel A (extract fuel A k)) in *.
  set (em := extract_masks fuel A k) in *. set (ej := extract fuel A k) in *.
  assert (F : forall s3 res r3, bindO (em s3 r3) (fun z => Ok (fst z, sum (masks_of res) (snd z))) = mapO (on_masks (0%N, 0%Z)) (bindO (ej s3 r3) (fun z => Ok (fst z, res_add res (snd z))))).
  { intros s3 res r3. rewrite IH. unfold mapO. destruct (ej s3 r3) as [[s4 res4]| | |]; cbn [bindO]; try reflexivity. unfold on_masks. cbn [fst snd]. now rewrite !sum_0, masks_add. }
  assert (T : forall s3 res r3,
    bindO (match mreg (ma s3) r3 with None => Ok (s3, masks_of res) | Some q => match chl (rg s3) q with [] => Ok (s3, masks_of res) | _ => bindO (pm s3 q (masks_of res)) (fun z => Ok (fst z)) end end)
      (fun x2 => bindO (em (fst x2) r3) (fun z => Ok (fst z, sum (snd x2) (snd z)))) =
    mapO (on_masks (0%N, 0%Z)) (bindO (match mreg (ma s3) r3 with None => Ok (s3, res) | Some q => match chl (rg s3) q with [] => Ok (s3, res) | _ => bindO (pj s3 q) (fun y => Ok (fst (fst y), res_add res (snd (fst y)))) end end)
      (fun x2 => bindO (ej (fst x2) r3) (fun z => Ok (fst z, res_add (snd x2) (snd z)))))).
  { intros s3 res r3. destruct (mreg (ma s3) r3) as [q|]; [|apply F]. destruct (chl (rg s3) q); [apply F|]. rewrite PS. unfold mapO at 1. destruct (pj s3 q) as [[[s4 res4] r4]| | |]; cbn [bindO]; try reflexivity.
    specialize (F s4 (res_add res res4) r3). rewrite masks_add in F. exact F. }
  destruct (mreg (ma s2) r) as [q|] eqn:Em; destruct (chl (rg s2) r) as [|c cs] eqn:Ec.
  - destruct (chl (rg s2) q) as [|c' cs'] eqn:Eq; [reflexivity|]. exact (T s2 (0%N, 0%Z, []) r).
  - rewrite PS. destruct (pj s2 r) as [[[s3 res] r3]| | |] eqn:Ep; unfold mapO at 1; cbn [bindO fst snd]; try reflexivity. specialize (T s3 res r3). rewrite <- (sum_0 (masks_of res)) in T. exact T.
  - reflexivity.
  - rewrite PS. destruct (pj s2 r) as [[[s3 res] r3]| | |] eqn:Ep; unfold mapO at 1; cbn [bindO fst snd]; try reflexivity. specialize (T s3 res r3). rewrite <- (sum_0 (masks_of res)) in T. exact T.
Qed.

Lemma extract_edges_spec : forall k s r a, extract_edges fuel A k s r a = mapO (on_edges a) (extract fuel A k s r).
Proof.
  induction k as [|k IH]; intros s r a; [reflexivity|]. cbn [extract_edges extract]. cbv zeta. set (s2 := match mreg (ma (cleanup_shell_area s r)) r with None => _ | Some q => _ end). pose proof (shatter_edges_spec _ _ IH) as PS.
  set (pm := pair_and_shatter_edges fuel A (extract_edges fuel A k)) in *. set (pj := pair_and_shatter fuel A (extract fuel A k)) in *.
  set (em := extract_edges fuel A k) in *. set (ej := extract fuel A k) in *.
  assert (F : forall s3 res r3, em s3 r3 (a ++ edges_of res) = mapO (on_edges a) (bindO (ej s3 r3) (fun z => Ok (fst z, res_add res (snd z))))).
  { intros s3 res r3. rewrite IH. unfold mapO. destruct (ej s3 r3) as [[s4 res4]| | |]; cbn [bindO]; try reflexivity. unfold on_edges. cbn [fst snd]. now rewrite <- app_assoc, edges_add. }
  assert (T : forall s3 res r3,
    bindO (match mreg (ma s3) r3 with None => Ok (s3, a ++ edges_of res) | Some q => match chl (rg s3) q with [] => Ok (s3, a ++ edges_of res) | _ => bindO (pm s3 q (a ++ edges_of res)) (fun z => Ok (fst z)) end end)
      (fun x2 => em (fst x2) r3 (snd x2)) =
    mapO (on_edges a) (bindO (match mreg (ma s3) r3 with None => Ok (s3, res) | Some q => match chl (rg s3) q with [] => Ok (s3, res) | _ => bindO (pj s3 q) (fun y => Ok (fst (fst y), res_add res (snd (fst y)))) end end)
      (fun x2 => bindO (ej (fst x2) r3) (fun z => Ok (fst z, res_add (snd x2) (snd z)))))).
  { intros s3 res r3. destruct (mreg (ma s3) r3) as [q|]; [|apply F]. destruct (chl (rg s3) q); [apply F|]. rewrite PS. unfold mapO at 1. destruct (pj s3 q) as [[[s4 res4] r4]| | |]; cbn [bindO]; try reflexivity.
    specialize (F s4 (res_add res res4) r3). rewrite edges_add, app_assoc in F. exact F. }
  destruct (mreg (ma s2) r) as [q|] eqn:Em; destruct (chl (rg s2) r) as [|c cs] eqn:Ec.
  - destruct (chl (rg s2) q) as [|c' cs'] eqn:Eq; [reflexivity|]. specialize (T s2 (0%N, 0%Z, []) r). cbn [edges_of snd] in T. rewrite app_nil_r in T. exact T.
  - rewrite PS. destruct (pj s2 r) as [[[s3 res] r3]| | |] eqn:Ep; unfold mapO at 1; cbn [bindO fst snd]; try reflexivity. exact (T s3 res r3).
  - reflexivity.
  - rewrite PS. destruct (pj s2 r) as [[[s3 res] r3]| | |] eqn:Ep; unfold mapO at 1; cbn [bindO fst snd]; try reflexivity. exact (T s3 res r3).
Qed.

(** All events. *)
Definition step_all (acc : outcome (state * result)) (v : nat) : outcome (state * result) :=
  bindO acc (fun st => let '(s, res) := (st : state * result) in
    match arr (nd s) v with
    | None => Ok (s, res)
    | Some _ => bindO (deref (top (nd s) v)) (fun r => bindO (extract fuel A fuel s r) (fun y => Ok (fst y, res_add res (snd y))))
    end).
Lemma all_stops : forall l acc, (forall x, acc <> Ok x) -> fold_left step_all l acc = acc.
Proof. induction l as [|p l IH]; intros acc H; [reflexivity|]. cbn [fold_left]. rewrite IH; destruct acc as [x| | |]; cbn; try reflexivity; try (intros; discriminate); elim (H x); reflexivity. Qed.
Lemma all_masks_from : forall l s res a, all_masks fuel A l s (sum a (masks_of res)) = mapO (on_masks a) (fold_left step_all l (Ok (s, res))).
Proof.
  induction l as [|v l IH]; intros s res a; [reflexivity|]. cbn [all_masks fold_left]. unfold step_all at 2. cbn [bindO]. destruct (arr (nd s) v); [|apply IH].
  destruct (deref (top (nd s) v)) as [r| | |]; cbn [bindO]; try (rewrite all_stops; [reflexivity|discriminate]).
  rewrite extract_masks_spec. unfold mapO at 1. destruct (extract fuel A fuel s r) as [[s1 y]| | |]; cbn [bindO]; try (rewrite all_stops; [reflexivity|discriminate]).
  cbn [fst snd]. rewrite <- IH, masks_add, <- sum_assoc. unfold on_masks. cbn [fst snd]. now rewrite sum_0.
Qed.
Lemma all_masks_spec : forall l s, all_masks fuel A l s (0%N, 0%Z) = mapO (on_masks (0%N, 0%Z)) (extract_all fuel A s l).
Proof. intros l s. apply (all_masks_from l s (0%N, 0%Z, []) (0%N, 0%Z)). Qed.
Lemma all_edges_from : forall l s res a, all_edges fuel A l s (a ++ edges_of res) = mapO (on_edges a) (fold_left step_all l (Ok (s, res))).
Proof.
  induction l as [|v l IH]; intros s res a; [reflexivity|]. cbn [all_edges fold_left]. unfold step_all at 2. cbn [bindO]. destruct (arr (nd s) v); [|apply IH].
  destruct (deref (top (nd s) v)) as [r| | |]; cbn [bindO]; try (rewrite all_stops; [reflexivity|discriminate]).
  rewrite extract_edges_spec. unfold mapO at 1. destruct (extract fuel A fuel s r) as [[s1 y]| | |]; cbn [bindO]; try (rewrite all_stops; [reflexivity|discriminate]).
  cbn [fst snd]. rewrite <- IH, edges_add, app_assoc. reflexivity.
Qed.
Lemma all_edges_spec : forall l s a, all_edges fuel A l s a = mapO (on_edges a) (extract_all fuel A s l).
Proof. intros l s a. rewrite <- (app_nil_r a) at 1. apply (all_edges_from l s (0%N, 0%Z, []) a). Qed.
End Extract.

(** ** Decoding *)
Section Decode.
Variables (G : graph) (fuel : nat) (A : ints) (I : neg_info).
Lemma decode_masks_spec : forall s h evs, decode_masks_h G fuel A I s h evs = mapO (fun x => (fst x, masks_of (snd x))) (decode_h G fuel A I s h evs).
Proof.
  intros s h evs. unfold decode_masks_h, decode_h. destruct (process_timeline_h G fuel A I s h evs) as [[s1 h1]| | |]; cbn [bindO]; try reflexivity.
  rewrite all_masks_spec. unfold mapO at 1. destruct (extract_all fuel A s1 evs) as [[s2 res]| | |]; cbn [bindO]; try reflexivity. unfold on_masks at 1 2. cbn [fst snd]. rewrite sum_0. destruct (neg_events I) as [|v l].
  - cbn [bindO fst snd]. destruct res as [[o w] l]. cbn. now rewrite N.lxor_0_r, Z.add_0_r.
  - rewrite all_masks_spec. unfold mapO at 1. destruct (extract_all fuel A s2 (v :: l)) as [[s3 res3]| | |]; cbn [bindO]; try reflexivity. unfold on_masks. cbn [fst snd]. rewrite sum_0. destruct res as [[o w] m], res3 as [[o3 w3] m3]. reflexivity.
Qed.
Lemma decode_edges_spec : forall s h evs, decode_edges_h G fuel A I s h evs = mapO (fun x => (fst x, edges_of (snd x))) (decode_h G fuel A I s h evs).
Proof.
  intros s h evs. unfold decode_edges_h, decode_h. destruct (process_timeline_h G fuel A I s h evs) as [[s1 h1]| | |]; cbn [bindO]; try reflexivity.
  rewrite all_edges_spec. unfold mapO at 1. destruct (extract_all fuel A s1 evs) as [[s2 res]| | |]; cbn [bindO]; try reflexivity. cbn [on_edges fst snd app]. destruct (neg_events I) as [|v l].
  - cbn [bindO fst snd]. destruct res as [[o w] l]. cbn. now rewrite app_nil_r.
  - rewrite all_edges_spec. unfold mapO at 1. destruct (extract_all fuel A s2 (v :: l)) as [[s3 res3]| | |]; cbn [bindO]; try reflexivity. destruct res as [[o w] m], res3 as [[o3 w3] m3]. reflexivity.
Qed.
Lemma decode_match_edges_spec : forall s h evs, neg_events I = [] -> decode_match_edges_h G fuel A I s h evs = decode_edges_h G fuel A I s h evs.
Proof.
  intros s h evs H. unfold decode_match_edges_h, decode_edges_h. rewrite H. destruct (process_timeline_h G fuel A I s h evs) as [[s1 h1]| | |]; reflexivity.
Qed.
End Decode.

(** ** The mask is the XOR of the masks of the match edges. *)
Definition xor_all (l : list cedge) : N := fold_right N.lxor 0%N (map eobs l).
Lemma xor_all_app : forall l m, xor_all (l ++ m) = N.lxor (xor_all l) (xor_all m).
Proof. induction l as [|e l IH]; intros m; [reflexivity|]. unfold xor_all in *. cbn [app map fold_right]. now rewrite IH, N.lxor_assoc. Qed.
Definition tallies (res : result) : Prop := fst (masks_of res) = xor_all (edges_of res).
Lemma tallies_add : forall x y, tallies x -> tallies y -> tallies (res_add x y).
Proof. intros [[o w] l] [[o' w'] l'] H H'. unfold tallies, masks_of, edges_of in *. cbn [fst snd res_add] in *. now rewrite xor_all_app, H, H'. Qed.
Definition when_ok {X} (P : X -> Prop) (a : outcome X) : Prop := forall x, a = Ok x -> P x.
Lemma when_bind : forall X Y (P : X -> Prop) (Q : Y -> Prop) a (f : X -> outcome Y), when_ok P a -> (forall x, P x -> when_ok Q (f x)) -> when_ok Q (bindO a f).
Proof. intros X Y P Q a f Ha Hf y Hy. destruct a as [x| | |]; try discriminate. exact (Hf x (Ha x eq_refl) y Hy). Qed.
Lemma when_here : forall X (P : X -> Prop) x, P x -> when_ok P (Ok x).
Proof. intros X P x H y Hy. injection Hy as <-. exact H. Qed.

Section Tally.
Variables (fuel : nat) (A : ints).
Lemma shatter_tallies : forall rec, (forall s r, when_ok (fun x => tallies (snd x)) (rec s r)) -> forall s r, when_ok (fun x => tallies (snd (fst x))) (pair_and_shatter fuel A rec s r).
Proof.
  intros rec H s r. rewrite joint_unfold. apply (when_bind _ _ (fun _ => True)); [intros x _; exact I|]. intros [s2 sub] _. cbv zeta.
  assert (K : forall l acc, when_ok (fun x => tallies (snd x)) acc -> when_ok (fun x => tallies (snd x)) (joint_pairs rec l acc)).
  { induction l as [|[[r1 r2] e] l IH]; intros acc Ha; [exact Ha|]. unfold joint_pairs. cbn [fold_left]. apply IH. eapply when_bind; [exact Ha|]. intros [s3 res] H3. cbn [snd] in H3.
    eapply when_bind; [apply H|]. cbv beta. intros y Hy. apply when_here. cbn [snd]. now apply tallies_add. }
  eapply when_bind; [apply K, when_here; reflexivity|]. cbv beta. intros z Hz. apply when_here. exact Hz.
Qed.
Lemma extract_tallies : forall k s r, when_ok (fun x => tallies (snd x)) (extract fuel A k s r).
Proof.
  induction k as [|k IH]; intros s r; [intros x Hx; discriminate|]. cbn [extract]. cbv zeta. set (s2 := match mreg (ma (cleanup_shell_area s r)) r with None => _ | Some q => _ end). pose proof (shatter_tallies _ IH) as PS.
  assert (One : forall s3 e w, when_ok (fun x : state * result => tallies (snd x)) (Ok (s3, (eobs e, w, [e])))) by (intros; apply when_here; unfold tallies; cbn; now rewrite N.lxor_0_r).
  assert (T : forall s3 res r3, tallies res -> when_ok (fun x => tallies (snd x)) (bindO (match mreg (ma s3) r3 with None => Ok (s3, res) | Some q => match chl (rg s3) q with [] => Ok (s3, res) | _ => bindO (pair_and_shatter fuel A (extract fuel A k) s3 q) (fun y => Ok (fst (fst y), res_add res (snd (fst y)))) end end)
      (fun x2 => bindO (extract fuel A k (fst x2) r3) (fun z => Ok (fst z, res_add (snd x2) (snd z)))))).
  { intros s3 res r3 Hres. apply (when_bind _ _ (fun x => tallies (snd x))).
    - destruct (mreg (ma s3) r3) as [q|]; [|now apply when_here]. destruct (chl (rg s3) q); [now apply when_here|]. eapply when_bind; [apply PS|]. cbv beta. intros y Hy. apply when_here. now apply tallies_add.
    - intros x2 H2. eapply when_bind; [apply IH|]. cbv beta. intros z Hz. apply when_here. now apply tallies_add. }
  assert (TP : when_ok (fun x => tallies (snd x)) (bindO (pair_and_shatter fuel A (extract fuel A k) s2 r) (fun x => let '(s3, res, r3) := (x : state * result * nat) in
     bindO (match mreg (ma s3) r3 with None => Ok (s3, res) | Some q => match chl (rg s3) q with [] => Ok (s3, res) | _ => bindO (pair_and_shatter fuel A (extract fuel A k) s3 q) (fun y => Ok (fst (fst y), res_add res (snd (fst y)))) end end)
      (fun x2 => bindO (extract fuel A k (fst x2) r3) (fun z => Ok (fst z, res_add (snd x2) (snd z))))))).
  { eapply when_bind; [apply PS|]. intros [[s3 res] r3] H3. apply T. exact H3. }
  destruct (mreg (ma s2) r) as [q|] eqn:Em; destruct (chl (rg s2) r) as [|c cs] eqn:Ec; [|exact TP|apply One|exact TP].
  destruct (chl (rg s2) q) as [|c' cs'] eqn:Eq; [apply One|]. exact (T s2 (0%N, 0%Z, []) r eq_refl).
Qed.
Lemma extract_all_tallies : forall s evs, when_ok (fun x => tallies (snd x)) (extract_all fuel A s evs).
Proof.
  intros s evs. change (extract_all fuel A s evs) with (fold_left (step_all fuel A) evs (Ok (s, (0%N, 0%Z, [])))).
  assert (K : forall l acc, when_ok (fun x => tallies (snd x)) acc -> when_ok (fun x => tallies (snd x)) (fold_left (step_all fuel A) l acc)).
  { induction l as [|v l IH]; intros acc Ha; [exact Ha|]. cbn [fold_left]. apply IH. unfold step_all. eapply when_bind; [exact Ha|]. intros [s3 res] H3. cbn [snd] in H3.
    destruct (arr (nd s3) v); [|now apply when_here]. apply (when_bind _ _ (fun _ => True)); [intros x _; exact I|]. intros r _. eapply when_bind; [apply extract_tallies|]. cbv beta. intros y Hy. apply when_here. cbn [snd]. now apply tallies_add. }
  apply K, when_here. reflexivity.
Qed.
Lemma decode_tallies : forall G I s h evs s' h' o w l, decode_h G fuel A I s h evs = Ok (s', h', (o, w, l)) -> N.lxor (xor_all l) (neg_obs I) = o.
Proof.
  intros G I s h evs s' h' o w l H. assert (W : when_ok (fun x => let '(_, _, (o, w, l)) := (x : state * heap * result) in N.lxor (xor_all l) (neg_obs I) = o) (decode_h G fuel A I s h evs)).
  { unfold decode_h. apply (when_bind _ _ (fun _ => True)); [intros x _; exact Logic.I|]. intros [s1 h1] _. eapply when_bind; [apply extract_all_tallies|]. cbv beta. intros x Hx.
    apply (when_bind _ _ (fun y => tallies (snd y))).
    - destruct (neg_events I); [apply when_here; reflexivity|apply extract_all_tallies].
    - intros y Hy. pose proof (tallies_add _ _ Hx Hy) as Ht. destruct x as [sx [[o1 w1] l1]], y as [sy [[o2 w2] l2]]. unfold tallies, masks_of, edges_of in Ht. cbn [fst snd res_add] in Ht |- *. apply when_here. now rewrite Ht. }
  exact (W _ H).
Qed.
End Tally.

(** Both end alike. *)
Lemma same_end : forall G fuel A I s h evs,
  match decode_masks_h G fuel A I s h evs, decode_edges_h G fuel A I s h evs with
  | Ok (s1, h1, (o, w)), Ok (s2, h2, l) => s1 = s2 /\ h1 = h2 /\ o = N.lxor (xor_all l) (neg_obs I)
  | Throw, Throw | UB, UB | Fuel, Fuel => True
  | _, _ => False
  end.
Proof.
  intros G fuel A I s h evs. rewrite decode_masks_spec, decode_edges_spec. pose proof (decode_tallies fuel A G I s h evs) as T. destruct (decode_h G fuel A I s h evs) as [[[s' h'] [[o w] l]]| | |]; cbn; try exact Logic.I.
  split; [reflexivity|]. split; [reflexivity|]. symmetry. exact (T s' h' o w l eq_refl).
Qed.
(** What holds of the joint model holds of both. *)
Lemma both_of : forall G A I s h evs K s' h' o w l, (forall fuel, K <= fuel -> decode_h G fuel A I s h evs = Ok (s', h', (o, w, l))) ->
  o = N.lxor (xor_all l) (neg_obs I) /\ forall fuel, K <= fuel -> decode_masks_h G fuel A I s h evs = Ok (s', h', (o, w)) /\ decode_edges_h G fuel A I s h evs = Ok (s', h', l).
Proof.
  intros G A I s h evs K s' h' o w l H. split; [symmetry; exact (decode_tallies K A G I s h evs s' h' o w l (H K (le_n K)))|]. intros fuel Hf. rewrite decode_masks_spec, decode_edges_spec, (H fuel Hf). split; reflexivity.
Qed.
