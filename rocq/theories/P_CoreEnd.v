(** Invariants of the decoder's core, part 22: the end of the main loop. *)
From Coq Require Import ZArith NArith List Bool Arith Lia Permutation Sorting.Sorted.
From Verif Require Import M_Base M_Varying M_Tracker M_Core S_Core S_Session S_Tree P_Sum P_Dual P_Up P_Tree P_Tree2 P_CoreGeo P_CoreSched P_CoreArea P_CoreRad P_CoreQueue P_CoreFlood P_CoreStep P_CoreRoles P_CoreShat P_CoreHit P_CoreSelf2 P_CoreEvent.
Import ListNotations.
Local Open Scope Z_scope.

Section End.
Variable G : graph.
Hypothesis WF : wf_graph G.
Variables (ev : list nat) (s : state) (ls : list nat) (ch : nat -> list nat) (al : list nat) (c : nat -> list nat).
Hypothesis AO : arena_ok (ra s) ls.
Hypothesis HC : Core G ev ls ch s al c.
Hypothesis Q0 : que (sc s) = [].

Lemma end_no_node : forall v, (v < length G)%nat -> has_desired (ntr (sc s) v) = false.
Proof.
  intros v Hv. destruct (has_desired (ntr (sc s) v)) eqn:E; [|reflexivity]. exfalso. destruct HC as (_ & HQ & _).
  destruct (q_nd _ _ _ _ _ HQ v Hv E) as [E' _]. apply (q_nq _ _ _ _ _ HQ v Hv) in E'. rewrite Q0 in E'. destruct E'.
Qed.
Lemma end_no_appr : forall u x w o, In (x, w, o) (nbrs G u) -> appr s u x w = None.
Proof.
  intros u x w o Hin. destruct (appr s u x w) as [T|] eqn:E; [|reflexivity]. exfalso. destruct HC as (_ & HQ & _).
  destruct (nbr_bound G WF _ _ _ _ Hin) as [Hu Hx].
  destruct (q_cov _ _ _ _ _ HQ u x w o T Hin E (fun h => h) (fun _ _ h => h)) as [[W _]|(v & Ev & W & _)].
  - rewrite end_no_node in W by assumption. discriminate.
  - rewrite end_no_node in W by auto. discriminate.
Qed.
Lemma end_no_shrink : forall R, In R ls -> bpar (rg s) R = None -> sof s R <> -1.
Proof.
  intros R HR Hb Hs. destruct HC as (_ & HQ & _). pose proof (q_shr _ _ _ _ _ HQ R HR Hb Hs (fun h => h)) as E.
  destruct (q_rd _ _ _ _ _ HQ R HR E) as [E' _]. apply (q_rq _ _ _ _ _ HQ R HR) in E'. rewrite Q0 in E'. destruct E'.
Qed.

(** A tree that is left has one region, which nothing leaves. *)
Lemma tree_left_infeasible : forall a F, In a al -> ~ explains G F ev.
Proof.
  intros a F Ha HF. pose proof HC as (HGeo & HQ & H). pose proof (proj1 HGeo) as HG. pose proof (g_up _ _ _ _ _ _ _ HG) as U.
  pose proof (b_str _ _ _ _ _ _ _ _ _ _ _ _ H) as ST. destruct (ts_out _ _ _ _ ST a Ha) as (R & Ho).
  destruct (b_out _ _ _ _ _ _ _ _ _ _ _ _ H a R Ha Ho) as (HR & Hb & Hs & _). specialize (Hs (fun h => h)).
  assert (Step : forall u v w o, In (Some v, w, o) (nbrs G u) -> top (nd s) u = Some R -> top (nd s) v = Some R).
  { intros u v w o Hin Tu. destruct (nbr_bound G WF _ _ _ _ Hin) as [Hu Hv]. specialize (Hv v eq_refl).
    assert (Nu : nsl s u = 1) by (rewrite (nsl_top_slope G ev s ls ch HGeo u R Hu Tu); exact Hs).
    pose proof (end_no_appr u (Some v) w o Hin) as A. unfold appr in A.
    destruct (same_opt (top (nd s) u) (top (nd s) v)) eqn:S; [apply same_opt_spec in S; congruence|]. exfalso.
    assert (Nv : nsl s v <> -1).
    { destruct (top (nd s) v) as [T|] eqn:Tv.
      - rewrite (nsl_top_slope G ev s ls ch HGeo v T Hv Tv). destruct (top_spec G ev s ls ch HGeo v T Hv Tv) as (Q & _ & _ & _ & _ & HT & HTb). now apply end_no_shrink.
      - unfold nsl, local_radius. rewrite Tv. discriminate. }
    pose proof (nsl_range G ev s ls ch HGeo v Hv) as Rg. rewrite Nu in A. cbn [Z.eqb Pos.eqb orb] in A. destruct (Z.eqb_spec (nsl s v) (-1)); [contradiction|].
    destruct (Z.eqb_spec (1 + nsl s v) 2); [discriminate|]. destruct (Z.eqb_spec (1 + nsl s v) 1); [discriminate|]. lia. }
  apply (closed_odd_infeasible G F ev (fun v => same_opt (top (nd s) v) (Some R)) (g_evnd _ _ _ _ _ _ _ HG) HF).
  - intros u x w o Hin. destruct (nbr_bound G WF _ _ _ _ Hin) as [Hu Hx]. destruct x as [v|]; cbn [inU].
    + destruct (same_opt (top (nd s) u) (Some R)) eqn:E1; destruct (same_opt (top (nd s) v) (Some R)) eqn:E2; auto.
      * apply same_opt_spec in E1. rewrite (Step _ _ _ _ Hin E1) in E2. apply same_opt_neq in E2. congruence.
      * apply same_opt_spec in E2. rewrite (Step _ _ _ _ (wf_sym G WF _ _ _ _ Hin) E2) in E1. apply same_opt_neq in E1. congruence.
    + destruct (same_opt (top (nd s) u) (Some R)) eqn:E1; [|reflexivity]. exfalso. apply same_opt_spec in E1.
      pose proof (end_no_appr u None w o Hin) as A. unfold appr in A. rewrite (nsl_top_slope G ev s ls ch HGeo u R Hu E1) in A. unfold sof in Hs. rewrite Hs in A. discriminate.
  - rewrite <- (g_evodd _ _ _ _ _ _ _ HG R HR). f_equal. f_equal. apply filter_ext_in. intros v Hv.
    destruct (g_ev _ _ _ _ _ _ _ HG v Hv) as (Hl & Q & Ea & _). rewrite (g_top _ _ _ _ _ _ _ HG v Q Hl Ea). pose proof (g_arr _ _ _ _ _ _ _ HG v Q Hl Ea) as HQ'.
    unfold chn. rewrite Ea. destruct (memb R (ch Q)) eqn:Em.
    + apply memb_In in Em. rewrite (up_root_only _ _ ch U Q R HQ' Em Hb). apply same_opt_spec. reflexivity.
    + apply same_opt_neq. intros E. injection E as E. rewrite <- E in Em.
      destruct (root_spec _ _ ch U Q HQ') as (Hin & _). apply memb_In in Hin. congruence.
Qed.

Lemma arena_length : forall (x : slots) l, arena_ok x l -> next x = (length l + length (free x))%nat.
Proof. intros x l H. apply Permutation_length in H. rewrite app_length, seq_length in H. lia. Qed.

Lemma end_spec :
  if (next (ta s) =? length (free (ta s)))%nat then al = [] /\ (forall R, In R ls -> bpar (rg s) R = None -> mated (tgt G ev s ch) (tbt G ev s ch) ls (bpar (rg s)) (sof s) (ma s) R)
  else forall F, ~ explains G F ev.
Proof.
  pose proof HC as (HGeo & HQ & H). pose proof (arena_length _ _ (b_arena _ _ _ _ _ _ _ _ _ _ _ _ H)) as L.
  destruct (Nat.eqb_spec (next (ta s)) (length (free (ta s)))) as [E|E].
  - assert (Ea : al = []) by (apply length_zero_iff_nil; lia). split; [assumption|]. intros R HR Hb.
    destruct (b_reg _ _ _ _ _ _ _ _ _ _ _ _ H R HR Hb (fun h => h)) as [(x & X & _)|[(x & X & _)|X]]; [rewrite Ea in X; destruct X|rewrite Ea in X; destruct X|exact X].
  - assert (X : exists a, In a al).
    { assert (N : al <> []) by (intros Z; rewrite Z in L; simpl in L; lia). clear - N. destruct al as [|a l]; [contradiction|]. exists a. now left. }
    destruct X as (a & Ha). intros F. now apply (tree_left_infeasible a F).
Qed.
End End.
