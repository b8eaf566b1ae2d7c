(** The matching graph made from a user graph without parallel edges is well formed, and making it succeeds. *)
From Coq Require Import ZArith NArith List Bool Arith Lia.
From Verif Require Import M_Base M_Core S_Core M_Build S_Build P_Tree P_Build P_Convert.
Import ListNotations.
Local Open Scope nat_scope.

Lemma range_below : forall n E, nodes_below n E <-> forall e, In e E -> in_range n e.
Proof.
  intros n E. split.
  - intros H [[[u x] w] o] He k Hk. destruct (H u x w o He) as [H1 H2]. destruct Hk as [<-|Hk]; [exact H1|]. destruct x as [v|]; [|destruct Hk]. destruct Hk as [<-|[]]. exact H2.
  - intros H u x w o He. split; [apply (H _ He); now left|]. destruct x as [v|]; [|exact I]. apply (H _ He). simpl. auto.
Qed.

Lemma entry_names : forall nobs e u x, In x (entry_of nobs e u) -> exists v w o, (e = (u, Some v, w, o) \/ e = (v, Some u, w, o)) /\ fst (fst x) = Some v.
Proof.
  intros nobs [[[a y] w] o] u x. unfold entry_of. destruct y as [b|]; [|intros []]. destruct (Nat.eqb_spec a b); [intros []|].
  destruct (Nat.eqb_spec a u) as [->|]; [intros [<-|[]]; exists b, w, o; auto|]. destruct (Nat.eqb_spec b u) as [->|]; [|intros []].
  intros [<-|[]]. exists a, w, o. auto.
Qed.
Lemma entry_short : forall nobs e u, NoDup (map (fun x => fst (fst x)) (entry_of nobs e u)).
Proof.
  intros nobs [[[a y] w] o] u. unfold entry_of. destruct y as [b|]; [|constructor]. destruct (a =? b); [constructor|].
  destruct (a =? u); [|destruct (b =? u)]; repeat constructor; intros [].
Qed.
Lemma NoDup_app2 : forall (X : Type) (l m : list X), NoDup l -> NoDup m -> (forall x, In x l -> ~ In x m) -> NoDup (l ++ m).
Proof.
  induction l as [|a l IH]; intros m Hl Hm Hd; simpl; [exact Hm|]. inversion Hl as [|? ? Ha Hl']; subst. constructor.
  - rewrite in_app_iff. intros [H|H]; [contradiction|]. apply (Hd a); [now left|exact H].
  - apply IH; auto. intros x Hx. apply Hd. now right.
Qed.
Lemma entries_NoDup : forall nobs E u, ForallOrdPairs (fun e f => ~ parallel e f) E ->
  NoDup (map (fun x => fst (fst x)) (flat_map (fun e => entry_of nobs e u) E)).
Proof.
  intros nobs E u H. induction H as [|e E He _ IH]; simpl; [constructor|]. rewrite map_app. apply NoDup_app2; [apply entry_short|exact IH|].
  intros x Hx Hy. apply in_map_iff in Hx as (y & <- & Hx). apply in_map_iff in Hy as (z & Ez & Hz). apply in_flat_map in Hz as (f & Hf & Hz).
  apply entry_names in Hx as (v & w & o & Hv & Ev). apply entry_names in Hz as (v' & w' & o' & Hv' & Ev').
  assert (v = v') by congruence. subst v'. apply (proj1 (Forall_forall _ _) He f Hf). destruct Hv as [-> | ->], Hv' as [-> | ->]; simpl; auto.
Qed.

Lemma built_wf : forall nobs n C g, built nobs n C g -> ForallOrdPairs (fun e f => ~ parallel e f) C ->
  (forall e, In e C -> Z.even (s_weight e) = true) -> wf_graph (adj g).
Proof.
  intros nobs n C g HB HP HE. pose proof HB as (_ & _ & Hadj & _ & Hb).
  assert (Hev : forall w, Z.even w = true -> (0 <= Z.abs w)%Z /\ Z.even (Z.abs w) = true).
  { intros w Hw. split; [apply Z.abs_nonneg|]. destruct w; exact Hw. }
  split.
  - intros u x w o Hin. destruct x as [v|].
    + apply (adj_edge _ _ _ _ HB) in Hin as (_ & w0 & obs & Hi & -> & _). apply Hev. destruct Hi as [Hi|Hi]; exact (HE _ Hi).
    + apply (adj_boundary _ _ _ _ HB) in Hin as (w0 & obs & Hi & -> & _). apply Hev. exact (HE _ Hi).
  - intros u v w o Hin. apply (adj_edge _ _ _ _ HB) in Hin as (N & w0 & obs & Hi & E1 & E2). apply (adj_edge _ _ _ _ HB).
    split; [congruence|]. exists w0, obs. tauto.
  - intros u w o Hin. apply (adj_edge _ _ _ _ HB) in Hin as (N & _). congruence.
  - intros u. rewrite Hadj. unfold adj_of. rewrite map_app. apply NoDup_app2.
    + specialize (Hb u). destruct (flat_map (fun e => bentry_of nobs e u) C) as [|a [|]]; simpl in *; try lia; repeat constructor. intros [].
    + apply entries_NoDup. exact HP.
    + intros x Hx Hy. apply in_map_iff in Hx as (y & <- & Hx). apply in_flat_map in Hx as (e & _ & Hx). apply bentry_None in Hx.
      apply in_map_iff in Hy as (z & Ez & Hz). apply in_flat_map in Hz as (f & _ & Hz). apply entry_names in Hz as (v & _ & _ & _ & Ev). congruence.
  - intros u e rest Eq w o Hin. rewrite Hadj in Eq. unfold adj_of in Eq. specialize (Hb u).
    destruct (flat_map (fun e => bentry_of nobs e u) C) as [|a [|]] eqn:Ea; simpl in *; try lia.
    + assert (X : In (None, w, o) (flat_map (fun e => entry_of nobs e u) C)) by (rewrite Eq; now right).
      apply in_flat_map in X as (f & _ & X). exact (no_bentry _ _ _ _ _ X).
    + injection Eq as _ Eq. rewrite <- Eq in Hin. apply in_flat_map in Hin as (f & _ & X). exact (no_bentry _ _ _ _ _ X).
Qed.

(** The converted list has no parallel edges. *)
Lemma FOP_app : forall (X : Type) (R : X -> X -> Prop) l m, ForallOrdPairs R l -> ForallOrdPairs R m -> (forall a b, In a l -> In b m -> R a b) -> ForallOrdPairs R (l ++ m).
Proof.
  intros X R l m Hl Hm H. induction Hl as [|a l Ha Hl IH]; simpl; [exact Hm|]. constructor.
  - apply Forall_app. split; [exact Ha|]. apply Forall_forall. intros b Hb. apply H; [now left|exact Hb].
  - apply IH. intros x y Hx Hy. apply H; [now right|exact Hy].
Qed.
Lemma convert_fop : forall B E t l t', ForallOrdPairs (fun e f => ~ parallel e f) E -> convert B E t = (l, t') -> ForallOrdPairs (fun e f => ~ parallel e f) l.
Proof.
  intros B E. induction E as [|e E IH]; intros t l t' H Hc; cbn [convert] in Hc; [injection Hc as <- _; constructor|].
  inversion H as [|? ? He HE]; subst. destruct (convert_edge B e) as [e'|u w o|] eqn:Ec; [|eapply IH; eauto..].
  destruct (convert B E t) as [l0 t0] eqn:E0. injection Hc as <- <-. constructor; [|eapply IH; eauto].
  pose proof (convert_edge_spec B e) as X. rewrite Ec in X. destruct X as (-> & _). apply Forall_forall. intros f Hf.
  destruct (convert_spec _ _ _ _ _ E0) as (H1 & _). apply H1 in Hf as (f0 & Hf & Ef). pose proof (convert_edge_spec B f0) as Y. rewrite Ef in Y.
  destruct Y as (-> & _). exact (proj1 (Forall_forall _ _) He f0 Hf).
Qed.
Lemma boundary_fop : forall n t, ForallOrdPairs (fun e f => ~ parallel e f) (boundary_list n t).
Proof.
  intros n t. unfold boundary_list. assert (H : forall l, NoDup l -> ForallOrdPairs (fun e f => ~ parallel e f) (flat_map (fun u => match t u with Some (w, obs) => [(u, None, w, obs)] | None => [] end) l)).
  { intros l Hl. induction Hl as [|u l Hu Hl IH]; simpl; [constructor|]. apply FOP_app; [destruct (t u) as [[w o]|]; repeat constructor|exact IH|].
    intros a b Ha Hb. destruct (t u) as [[w o]|]; [|destruct Ha]. destruct Ha as [<-|[]]. apply in_flat_map in Hb as (v & Hv & Hb). destruct (t v) as [[w' o']|]; [|destruct Hb].
    destruct Hb as [<-|[]]. simpl. intros [[-> _]|[H _]]; [contradiction|discriminate]. }
  apply H, seq_NoDup.
Qed.
Lemma convert_all_fop : forall n B E, ForallOrdPairs (fun e f => ~ parallel e f) E -> ForallOrdPairs (fun e f => ~ parallel e f) (convert_all n B E).
Proof.
  intros n B E H. unfold convert_all. destruct (convert B E (fun _ => None)) as [l t'] eqn:Ec. apply FOP_app; [eapply convert_fop; eauto|apply boundary_fop|].
  intros a b Ha Hb. destruct (convert_spec _ _ _ _ _ Ec) as (H1 & _). apply H1 in Ha as (e0 & _ & Ee). pose proof (convert_edge_spec B e0) as X. rewrite Ee in X.
  destruct X as (-> & u & v & w & o & -> & _). apply boundary_list_In in Hb as (u' & w' & o' & _ & _ & ->). simpl. intros [[_ X]|[_ X]]; discriminate.
Qed.
Lemma convert_all_weights : forall n B E e, (forall e, In e E -> in_range n e) -> In e (convert_all n B E) -> exists e0, In e0 E /\ s_weight e0 = s_weight e.
Proof.
  intros n B E e Hr H. apply convert_all_In in H; [|exact Hr]. destruct H as (t' & Et & [(u & v & w & o & -> & Hi & _)|(u & w & o & -> & _ & Ht)]); [exists (u, Some v, w, o); auto|].
  destruct (convert B E (fun _ => None)) as [l t1] eqn:Ec. cbn [snd] in Et. subst t1. destruct (convert_spec _ _ _ _ _ Ec) as (_ & H2 & _ & _).
  apply H2 in Ht as [D|(e0 & Hi & He)]; [discriminate|]. pose proof (convert_edge_spec B e0) as X. rewrite He in X. destruct X as (_ & <- & _). exists e0. auto.
Qed.

(** Building succeeds if the nodes are in range and no node gets two boundary edges. *)
Lemma add_any_total : forall nobs n E g e, built nobs n E g -> in_range n e ->
  (forall u w o w' o', e = (u, None, w, o) -> ~ In (u, None, w', o') E) -> exists g', add_any nobs g e = Ok g'.
Proof.
  intros nobs n E g [[[a x] w] obs] (Hneg & Hlen & Hadj & Hrng & Hb) Hr Hbd. destruct (note_negative_ok E g a x w obs Hneg) as [_ HA].
  destruct x as [b|]; cbn [add_any s_node_list] in *.
  - unfold add_edge. assert (a < n /\ b < n) by (split; apply Hr; simpl; auto). destruct (Nat.leb_spec (length (adj g)) (Nat.max a b)); [lia|]. destruct (a =? b); eauto.
  - unfold add_boundary_edge. assert (a < n) by (apply Hr; simpl; auto). destruct (Nat.leb_spec (length (adj g)) a); [lia|]. rewrite HA.
    pose proof (Hadj a) as Ha. unfold nbrs in Ha. rewrite Ha.
    destruct (adj_of nobs E a) as [|[[[y|] w'] o'] r] eqn:Eq; eauto. exfalso.
    assert (X : In (None, w', o') (adj_of nobs E a)) by (rewrite Eq; now left). unfold adj_of in X. apply in_app_or in X as [X|X].
    + apply in_flat_map in X as ([[[c y] w1] o1] & Hi & X). unfold bentry_of in X. destruct y; [destruct X|]. destruct (Nat.eqb_spec c a) as [->|]; [|destruct X].
      exact (Hbd a w obs w1 o1 eq_refl Hi).
    + apply in_flat_map in X as (f & _ & X). exact (no_bentry _ _ _ _ _ X).
Qed.
Lemma build_total : forall nobs n C, (forall e, In e C -> in_range n e) -> ForallOrdPairs (fun e f => ~ parallel e f) C -> exists g, build nobs n C = Ok g.
Proof.
  intros nobs n C Hr HP. unfold build.
  assert (X : forall E2 E1 g1, built nobs n E1 g1 -> (forall e, In e E2 -> in_range n e) -> ForallOrdPairs (fun e f => ~ parallel e f) (E1 ++ E2) ->
     exists g, fold_left (fun o e => bindO o (fun g => add_any nobs g e)) E2 (Ok g1) = Ok g).
  { induction E2 as [|e E2 IH]; intros E1 g1 H1 Hr2 H2; cbn [fold_left]; [eauto|].
    destruct (add_any_total nobs n E1 g1 e H1) as [g2 E]; [apply Hr2; now left| |].
    - intros u w o w' o' -> Hi. clear - H2 Hi. induction E1 as [|f E1 IH]; [destruct Hi|]. simpl in H2. inversion H2 as [|? ? Hf HF]; subst.
      destruct Hi as [->|Hi]; [|now apply IH]. rewrite Forall_forall in Hf. apply (Hf (u, None, w, o)); [apply in_or_app; right; now left|]. simpl. auto.
    - cbn [bindO]. rewrite E. apply (IH (E1 ++ [e])); [eapply add_any_built; eauto|intros f Hf; apply Hr2; now right|]. now rewrite <- app_assoc. }
  apply (X C [] (empty_graph n)); auto. split; [|split; [|split; [|split]]].
  - split; [constructor|]. split; [reflexivity|]. split; [constructor|]. split; reflexivity.
  - simpl. apply repeat_length.
  - intros u. unfold nbrs, adj_of. simpl. destruct (Nat.lt_ge_cases u n); [now rewrite nth_repeat|]. apply nth_overflow. rewrite repeat_length. lia.
  - intros e [].
  - intros u. simpl. lia.
Qed.
Lemma convert_all_range : forall n B E, (forall e, In e E -> in_range n e) -> forall e, In e (convert_all n B E) -> in_range n e.
Proof.
  intros n B E Hr e H. apply convert_all_In in H; [|exact Hr]. destruct H as (t' & _ & [(u & v & w & o & -> & Hi & _)|(u & w & o & -> & Hu & _)]); [exact (Hr _ Hi)|].
  intros k [<-|[]]. exact Hu.
Qed.
Lemma conversion_wf : forall nobs n B E, nodes_below n E -> ForallOrdPairs (fun e f => ~ parallel e f) E -> (forall e, In e E -> Z.even (s_weight e) = true) ->
  exists g, to_matching_graph nobs n B E = Ok g /\ wf_graph (adj g) /\ length (adj g) = n /\ (forall v, B v = true -> nbrs (adj g) v = []).
Proof.
  intros nobs n B E Hr HP HE. pose proof (proj1 (range_below n E) Hr) as Hr1. clear Hr. rename Hr1 into Hr. destruct (build_total nobs n (convert_all n B E)) as [g Hg]; [now apply convert_all_range|now apply convert_all_fop|].
  exists g. split; [exact Hg|]. apply build_built in Hg as HB. split; [|split].
  - eapply built_wf; eauto; [now apply convert_all_fop|]. intros e He. apply convert_all_weights in He as (e0 & Hi & <-); auto.
  - apply HB.
  - intros v Hv. destruct (nbrs (adj g) v) as [|[[x w] m] r] eqn:En; [reflexivity|]. exfalso.
    assert (Hin : In (x, w, m) (nbrs (adj g) v)) by (rewrite En; now left). destruct x as [u|].
    + apply (adj_edge _ _ _ _ HB) in Hin as (_ & w0 & obs & [Hi|Hi] & _); apply convert_all_In in Hi; try exact Hr;
        destruct Hi as (t' & _ & [(u1 & v1 & w1 & o1 & Eq & _ & B1 & B2)|(u1 & w1 & o1 & Eq & _)]); try discriminate; injection Eq as -> -> _ _; congruence.
    + apply (adj_boundary _ _ _ _ HB) in Hin as (w0 & obs & Hi & _). apply convert_all_In in Hi; [|exact Hr].
      destruct Hi as (t' & Et & [(u1 & v1 & w1 & o1 & Eq & _)|(u1 & w1 & o1 & Eq & _ & Ht)]); [discriminate|]. injection Eq as <- _ _.
      destruct (convert B E (fun _ => None)) as [l t1] eqn:Ec. cbn [snd] in Et. subst t1. destruct (convert_spec _ _ _ _ _ Ec) as (_ & H2 & _ & _).
      apply H2 in Ht as [D|(e0 & Hi & He)]; [discriminate|]. pose proof (convert_edge_spec B e0) as X. rewrite He in X. destruct X as (Bu & _). congruence.
Qed.

Lemma boundary_conversion' : forall nobs n B E g, nodes_below n E -> (forall e, In e E -> (0 <= s_weight e)%Z) ->
  to_matching_graph nobs n B E = Ok g -> forall evs, (forall v, In v evs -> B v = false) ->
  (forall F, u_explains E B F evs -> exists F', explains (adj g) F' evs /\ (weight_of F' <= s_total F)%Z) /\
  (forall F', explains (adj g) F' evs -> exists F, u_explains E B F evs /\ s_total F = weight_of F' /\ u_mask nobs F = obs_of F').
Proof. intros nobs n B E g H. apply boundary_conversion. now apply range_below. Qed.
