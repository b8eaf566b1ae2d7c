From Coq Require Import ZArith List Permutation Lia Bool.
From Verif Require Import M_Cyclic P_Cyclic M_Tracker S_Tracker.
Import ListNotations.
Open Scope Z_scope.

Section Sys.
Variable w : Z.
Hypothesis Hw : 1 <= w.

Definition H := 2 ^ (w - 1).

(** Invariant: pending entries are within half a period; a queued time recorded in the tracker is that
    of a pending entry; the wish is the desired time, never before the queued entry. *)
Definition Inv (wish : option Z) (s : sys) : Prop :=
  (forall p, In p (s_pending s) -> s_now s <= p < s_now s + H) /\
  (has_queued (s_tr s) = true -> exists q, In q (s_pending s) /\ queued_time (s_tr s) = wrap w q /\
     (forall t, wish = Some t -> q <= t)) /\
  match wish with
  | Some t => has_desired (s_tr s) = true /\ desired_time (s_tr s) = wrap w t /\
              s_now s <= t < s_now s + H /\ has_queued (s_tr s) = true
  | None => has_desired (s_tr s) = false
  end.

Lemma H_pos : 0 < H. Proof. apply Z.pow_pos_nonneg; lia. Qed.
Lemma H_pow : 2 ^ w = 2 * H. Proof. apply pow_split; exact Hw. Qed.

Lemma widen_window now t : now <= t < now + H -> widen w (wrap w t) now = t.
Proof. intros. apply widen_exact; [exact Hw|]. pose proof H_pos. unfold H in *. lia. Qed.

Lemma inv_init now : Inv None (sys_init now).
Proof. split; [intros p []|]. split; [discriminate|reflexivity]. Qed.

Lemma inv_run wish s acts log wish' s' : sys_run w wish s acts log wish' s' -> Inv wish s ->
  Forall2 log_entry_ok acts log /\ Inv wish' s'.
Proof.
  pose proof H_pos as HP. pose proof H_pow as HW.
  induction 1 as [wish s|wish s t tr new acts log wish' s' Ht E R IH|wish s acts log wish' s' R IH
    |wish s t rest keep tr new acts log wish' s' Pm Hmin E R IH|wish s n acts log wish' s' Hn Hp R IH]; intros (I1 & I2 & I3).
  - split; [constructor|split; auto].
  - fold H in Ht.
    assert (Inv (Some t) (mkSys (s_now s) (enq w (s_now s) new (s_pending s)) tr)) as I'.
    { unfold set_desired in E.
      destruct (has_queued (s_tr s)) eqn:Q; simpl in E.
      - destruct (I2 eq_refl) as (q & Hq & Eq & _).
        pose proof (I1 q Hq) as Wq.
        rewrite Eq in E. destruct (cyc_order w q t Hw) as (_ & _ & G & _); [unfold H in *; lia|].
        rewrite G in E. destruct (Z.ltb_spec t q).
        + inversion E; subst. unfold enq. simpl. rewrite widen_window by lia.
          split; [|split].
          * intros p [<-|Hp]; simpl; auto.
          * intros _. exists t. simpl. repeat split; auto. intros t' E'. inversion E'; lia.
          * simpl. auto.
        + inversion E; subst. unfold enq. simpl.
          split; [|split].
          * exact I1.
          * intros _. exists q. simpl. repeat split; auto. intros t' E'. inversion E'; lia.
          * simpl. auto.
      - inversion E; subst. unfold enq. simpl. rewrite widen_window by lia.
        split; [|split].
        + intros p [<-|Hp]; simpl; auto.
        + intros _. exists t. simpl. repeat split; auto. intros t' E'. inversion E'; lia.
        + simpl. auto. }
    destruct (IH I') as [F I'']. split; [constructor; [reflexivity|exact F]|exact I''].
  - assert (Inv None (mkSys (s_now s) (s_pending s) (set_no_desired (s_tr s)))) as I'.
    { split; [exact I1|]. split; [|reflexivity]. simpl. intros Q. destruct (I2 Q) as (q & ? & ? & _).
      exists q. repeat split; auto. discriminate. }
    destruct (IH I') as [F I'']. split; [constructor; [reflexivity|exact F]|exact I''].
  - assert (Hin : forall p, In p (s_pending s) <-> In p (t :: rest)).
    { intros p. split; apply Permutation_in; [exact Pm|symmetry; exact Pm]. }
    assert (Wt : s_now s <= t < s_now s + H) by (apply I1, Hin; now left).
    assert (X : log_entry_ok (Deliver t) (wish, keep) /\
                Inv (wish_step wish (Deliver t) keep) (mkSys t (enq w t new rest) tr)).
    { unfold dequeue_decision in E.
      assert (Wr : forall p, In p rest -> t <= p < t + H).
      { intros p Hp. specialize (Hmin p Hp). assert (In p (s_pending s)) by (apply Hin; now right).
        specialize (I1 p H0). lia. }
      destruct (has_queued (s_tr s)) eqn:Q; simpl in E.
      - destruct (I2 eq_refl) as (q & Hq & Eq & Hqw).
        pose proof (I1 q Hq) as Wq.
        assert (Htq : t <= q) by (apply Hin in Hq; destruct Hq as [->|Hq]; [lia|auto]).
        rewrite Eq in E.
        destruct (Z.eqb_spec (wrap w t) (wrap w q)) as [Etq|Ntq]; simpl in E.
        + apply wrap_eq_iff in Etq; [|exact Hw|lia]. subst q.
          destruct wish as [tw|].
          * destruct I3 as (D1 & D2 & D3 & D4). rewrite D1 in E. simpl in E. rewrite D2 in E.
            destruct (Z.eqb_spec (wrap w t) (wrap w tw)) as [Ew|Nw]; simpl in E.
            -- apply wrap_eq_iff in Ew; [|exact Hw|lia]. subst tw. inversion E; subst. simpl. split.
               ++ tauto.
               ++ split; [exact Wr|]. split; [discriminate|reflexivity].
            -- inversion E; subst. simpl.
               specialize (Hqw tw eq_refl). unfold enq. simpl. rewrite widen_window by lia. split.
               ++ split; [discriminate|]. intros E1; inversion E1; congruence.
               ++ split; [|split].
                  ** intros p [<-|Hp]; simpl; [lia|auto].
                  ** intros _. exists tw. simpl. repeat split; auto. intros t' E'; inversion E'; lia.
                  ** simpl. repeat split; auto; lia.
          * rewrite I3 in E. simpl in E. inversion E; subst. simpl. split; [split; discriminate|].
            split; [exact Wr|]. split; [discriminate|]. simpl. reflexivity.
        + inversion E; subst. unfold enq. simpl.
          assert (Hqr : In q rest) by (apply Hin in Hq; destruct Hq as [->|Hq]; [congruence|exact Hq]).
          assert (Hlt : t < q) by (destruct (Z.eq_dec t q); [congruence|lia]).
          split.
          * split; [discriminate|]. intros ->. specialize (Hqw t eq_refl). lia.
          * split; [exact Wr|]. split.
            -- intros _. exists q. auto.
            -- simpl. destruct wish as [tw|]; [|assumption].
               destruct I3 as (D1 & D2 & D3 & D4). specialize (Hqw tw eq_refl). repeat split; auto; lia.
      - inversion E; subst. unfold enq. simpl.
        destruct wish as [tw|]; [destruct I3 as (_ & _ & _ & D4); congruence|].
        split; [split; discriminate|]. split; [exact Wr|]. split; [simpl; congruence|exact I3]. }
    destruct X as [X1 X2]. destruct (IH X2) as [F I'']. split; [constructor; [exact X1|exact F]|exact I''].
  - assert (Inv wish (mkSys n (s_pending s) (s_tr s))) as I'.
    { split; [|split].
      - simpl. intros p Hpp. specialize (I1 p Hpp). specialize (Hp p Hpp). lia.
      - exact I2.
      - simpl. destruct wish as [t|]; [|exact I3]. destruct I3 as (D1 & D2 & D3 & D4).
        destruct (I2 D4) as (q & Hq & _ & Hqt). specialize (Hqt t eq_refl). specialize (Hp q Hq).
        repeat split; auto; lia. }
    destruct (IH I') as [F I'']. split; [constructor; [reflexivity|exact F]|exact I''].
Qed.

Lemma tracker_exact now acts log wish' s' :
  sys_run w None (sys_init now) acts log wish' s' -> Forall2 log_entry_ok acts log.
Proof. intros R. exact (proj1 (inv_run _ _ _ _ _ _ R (inv_init now))). Qed.

Lemma tracker_not_lost now acts log t s' :
  sys_run w None (sys_init now) acts log (Some t) s' ->
  s_now s' <= t /\ exists p, In p (s_pending s') /\ s_now s' <= p <= t.
Proof.
  intros R. destruct (inv_run _ _ _ _ _ _ R (inv_init now)) as [_ (I1 & I2 & I3)].
  destruct I3 as (D1 & D2 & D3 & D4). destruct (I2 D4) as (q & Hq & _ & Hqt).
  split; [lia|]. exists q. specialize (Hqt t eq_refl). specialize (I1 q Hq). repeat split; auto; lia.
Qed.
End Sys.
