(** Radii are bounded by the distances between detection events. *)
From Coq Require Import ZArith NArith List Bool Arith Lia Permutation.
From Verif Require Import M_Base M_Core S_Core S_Tree S_Decode S_Reach P_Sum P_Dual P_Up P_Tree P_CoreGeo.
Import ListNotations.
Local Open Scope Z_scope.

Definition conn (G : graph) (a b : nat) : Prop := exists l o, walk G a b l o.
Lemma conn_refl : forall G a, conn G a a.
Proof. intros G a. exists 0, 0%N. constructor. Qed.
Lemma conn_trans : forall G a b c, conn G a b -> conn G b c -> conn G a c.
Proof. intros G a b c (l & o & H) (l' & o' & H'). exists (l + l'), (N.lxor o o'). eapply walk_app; eauto. Qed.
Lemma conn_sym : forall G, wf_graph G -> forall a b, conn G a b -> conn G b a.
Proof. intros G WF a b (l & o & H). exists l, o. now apply walk_rev. Qed.

(** ** The components of a list of edges *)
Fixpoint color (F : list edge) (v : nat) : nat :=
  match F with
  | [] => v
  | (u, Some x, _, _) :: F => if (color F v =? color F x)%nat then color F u else color F v
  | (_, None, _, _) :: F => color F v
  end.
Lemma color_edge : forall F u x w o, In (u, Some x, w, o) F -> color F u = color F x.
Proof.
  induction F as [|[[[a [b|]] w'] o'] F IH]; intros u x w o H; [destruct H| |].
  - cbn [color]. destruct H as [E|H].
    + injection E as <- <- <- <-. rewrite Nat.eqb_refl. destruct (_ =? _)%nat; reflexivity.
    + rewrite (IH u x w o H). reflexivity.
  - cbn [color]. destruct H as [E|H]; [discriminate|]. exact (IH u x w o H).
Qed.
Lemma color_conn : forall G, wf_graph G -> forall F, Forall (is_edge G) F -> forall a b, color F a = color F b -> conn G a b.
Proof.
  intros G WF F HF. induction HF as [|[[[u [x|]] w] o] F He HF IH]; intros a b E; cbn [color] in E; [subst; apply conn_refl| |now apply IH].
  assert (X : conn G u x) by (exists w, o; apply walk_one; apply He).
  destruct (Nat.eqb_spec (color F a) (color F x)) as [Ea|Ea], (Nat.eqb_spec (color F b) (color F x)) as [Eb|Eb].
  - apply IH. congruence.
  - apply (conn_trans G a x b); [now apply IH|]. apply (conn_trans G x u b); [now apply conn_sym|now apply IH].
  - apply (conn_trans G a u b); [now apply IH|]. apply (conn_trans G u x b); [assumption|apply IH; congruence].
  - now apply IH.
Qed.

(** An odd number of events joined to no other event and not to the boundary have no correction. *)
Lemma no_odd_island : forall G, wf_graph G -> forall F ev ins, NoDup ev -> explains G F ev -> Nat.odd (length (filter ins ev)) = true ->
  (forall a b, In a ev -> In b ev -> ins a = true -> conn G a b -> ins b = true) ->
  (forall a l o, In a ev -> ins a = true -> ~ path G a None l o) -> False.
Proof.
  intros G WF F ev ins ND [HF Hdeg] Ho Hc Hb.
  set (chi := fun v => existsb (fun s => (color F s =? color F v)%nat) (filter ins ev)).
  set (ph := fun x => match x with Some v => if chi v then 0 else 1 | None => 1 end).
  assert (C : forall v, chi v = true -> exists s, In s ev /\ ins s = true /\ conn G s v).
  { intros v H. apply existsb_exists in H as (s & Hs & E). apply filter_In in Hs as [Hs1 Hs2]. apply Nat.eqb_eq in E. exists s. split; [assumption|]. split; [assumption|]. now apply (color_conn G WF F HF). }
  assert (B : 1 <= zsum (gap ph) F).
  { apply (moat_bound ph 1) with (evs := ev) (ins := ins); auto.
    - intros [v|]; cbn [ph]; [destruct (chi v)|]; lia.
    - intros s Hs. cbn [ph]. destruct (chi s) eqn:E.
      + destruct (C s E) as (s0 & H1 & H2 & H3). now rewrite (Hc s0 s H1 Hs H2 H3).
      + destruct (ins s) eqn:Ei; [|reflexivity]. exfalso. assert (chi s = true); [|congruence]. apply existsb_exists. exists s. split; [apply filter_In; now split|apply Nat.eqb_refl]. }
  assert (Z : zsum (gap ph) F = 0).
  { assert (Zs : forall L, incl L F -> zsum (gap ph) L = 0); [|apply Zs, incl_refl]. induction L as [|[[[u x] w] o] L IH]; intros HL; [reflexivity|]. cbn [zsum]. rewrite IH by (intros z Hz; apply HL; now right).
    assert (Hin : In (u, x, w, o) F) by (apply HL; now left). rewrite Forall_forall in HF. pose proof (HF _ Hin) as [He _]. cbn [gap]. destruct x as [x|]; cbn [ph].
    - unfold chi. rewrite (color_edge F u x w o Hin). destruct (existsb _ _); reflexivity.
    - destruct (chi u) eqn:E; [|reflexivity]. exfalso. destruct (C u E) as (s & H1 & H2 & l & o1 & H3). apply (Hb s (l + w) (N.lxor o1 o) H1 H2). exists u, l, o1, w, o. auto. }
  lia.
Qed.

Section Reach.
Variable G : graph.
Hypothesis WF : wf_graph G.
Variable ev : list nat.
Variable n : nodesM.
Variable g : regionsM.
Variable ls : list nat.
Variable y : nat -> Z.
Variable ch : nat -> list nat.
Hypothesis HG : geo G ev n g ls y ch.
Notation L := (fun R => In R ls).
Let U : up_ok L (bpar g) ch := g_up _ _ _ _ _ _ _ HG.

(** ** Radii and distances *)
Lemma cross_walk : forall a b l o, walk G a b l o -> zsum (fun R => Z.abs (phi n ch y R (Some a) - phi n ch y R (Some b))) ls <= l.
Proof.
  intros a b l o H. induction H as [|v l o x w ob H IH Hin].
  - clear HG U. induction ls as [|R ls' IH']; cbn [zsum]; [lia|]. rewrite Z.sub_diag. cbn [Z.abs]. lia.
  - pose proof (g_dual _ _ _ _ _ _ _ HG v (Some x) w ob Hin) as B.
    assert (T : zsum (fun R => Z.abs (phi n ch y R (Some a) - phi n ch y R (Some x))) ls <=
      zsum (fun R => Z.abs (phi n ch y R (Some a) - phi n ch y R (Some v))) ls + zsum (fun R => Z.abs (phi n ch y R (Some v) - phi n ch y R (Some x))) ls).
    { clear. induction ls as [|R ls' IH']; cbn [zsum]; [lia|]. lia. }
    lia.
Qed.
Lemma cross_path : forall a x l o, path G a x l o -> zsum (fun R => Z.abs (phi n ch y R (Some a) - phi n ch y R x)) ls <= l.
Proof.
  intros a [b|] l o H; [exact (cross_walk a b l o H)|]. destruct H as (v & l' & o' & w & ob & H & Hin & -> & _). pose proof (cross_walk a v l' o' H) as B1. pose proof (g_dual _ _ _ _ _ _ _ HG v None w ob Hin) as B2.
  assert (T : zsum (fun R => Z.abs (phi n ch y R (Some a) - phi n ch y R None)) ls <=
      zsum (fun R => Z.abs (phi n ch y R (Some a) - phi n ch y R (Some v))) ls + zsum (fun R => Z.abs (phi n ch y R (Some v) - phi n ch y R None)) ls).
  { clear. induction ls as [|R ls' IH']; cbn [zsum]; [lia|]. lia. }
  lia.
Qed.
Lemma phi_event : forall s R, In s ev -> In R (chn n ch s) -> phi n ch y R (Some s) = 0.
Proof.
  intros s R Hs HR. destruct (g_ev _ _ _ _ _ _ _ HG s Hs) as (_ & Q & _ & _ & _ & E & _). unfold phi. destruct (same_opt _ _); [assumption|]. apply memb_In in HR. now rewrite HR.
Qed.
Lemma reach_out : forall s x l o, In s ev -> match x with Some s' => In s' ev /\ top n s' <> top n s | None => True end -> path G s x l o -> Yv n ch y s <= l.
Proof.
  intros s x l o Hs Hx H. etransitivity; [|exact (cross_path s x l o H)]. pose proof (ev_lt G ev n g ls y ch HG s Hs) as Ls.
  assert (B : 0 <= zsum (fun R => Z.abs (phi n ch y R (Some s) - phi n ch y R x)) (chn n ch s) <= zsum (fun R => Z.abs (phi n ch y R (Some s) - phi n ch y R x)) ls).
  { apply zsum_sub; [exact (chn_NoDup G ev n g ls y ch HG s Ls)|exact (chn_incl G ev n g ls y ch HG s Ls)|intros; lia]. }
  etransitivity; [|exact (proj2 B)]. apply Z.eq_le_incl. unfold Yv. apply zsum_ext. intros R HR. rewrite (phi_event s R Hs HR).
  assert (E : phi n ch y R x = y R).
  { destruct x as [s'|]; [|reflexivity]. destruct Hx as [Hs' Ht]. pose proof (ev_lt G ev n g ls y ch HG s' Hs') as Ls'. apply (phi_out G ev n g ls y ch HG); [|assumption]. intros HR'. apply Ht.
    exact (chn_tops G ev n g ls y ch HG s' s R Ls' Ls HR' HR). }
  rewrite E. pose proof (g_y0 _ _ _ _ _ _ _ HG R (chn_incl G ev n g ls y ch HG s Ls R HR)). lia.
Qed.

(** ** The events of a region are joined by paths *)
Lemma region_conn : forall k R, (length ls - length (ch R) <= k)%nat -> In R ls -> forall a b, In a ev -> In b ev -> In R (chn n ch a) -> In R (chn n ch b) -> conn G a b.
Proof.
  assert (LC : forall R, In R ls -> (length (ch R) <= length ls)%nat) by (intros R HR; apply NoDup_incl_length; [exact (up_NoDup _ _ ch U R HR)|exact (up_all_L _ _ ch U R HR)]).
  induction k as [|k IH]; intros R Hk HR a b Ha Hb Ra Rb.
  all: destruct (g_ev _ _ _ _ _ _ _ HG a Ha) as (La & Qa & Aa & Ca & _); destruct (g_ev _ _ _ _ _ _ _ HG b Hb) as (Lb & Qb & Ab & Cb & _);
    unfold chn in Ra, Rb; rewrite Aa in Ra; rewrite Ab in Rb; pose proof (g_arr _ _ _ _ _ _ _ HG a Qa La Aa) as HQa; pose proof (g_arr _ _ _ _ _ _ _ HG b Qb Lb Ab) as HQb.
  all: assert (Leaf : chl g R = [] -> a = b) by
    (intros E0; assert (Ea : Qa = R); [destruct (Nat.eq_dec Qa R) as [|Ne]; [assumption|]; destruct (up_child _ _ ch U Qa HQa R Ra Ne) as (r & E1 & _ & E2); pose proof (proj2 (g_chl _ _ _ _ _ _ _ HG R r HR) (conj E2 E1)) as X; rewrite E0 in X; destruct X|];
     assert (Eb : Qb = R); [destruct (Nat.eq_dec Qb R) as [|Ne]; [assumption|]; destruct (up_child _ _ ch U Qb HQb R Rb Ne) as (r & E1 & _ & E2); pose proof (proj2 (g_chl _ _ _ _ _ _ _ HG R r HR) (conj E2 E1)) as X; rewrite E0 in X; destruct X|];
     subst Qa Qb; destruct (g_leaf _ _ _ _ _ _ _ HG R HR E0) as (l & s & S1 & S2 & S3);
     assert (Ia : In a (shl g R)) by (apply (g_shl _ _ _ _ _ _ _ HG R a HR); now split); assert (Ib : In b (shl g R)) by (apply (g_shl _ _ _ _ _ _ _ HG R b HR); now split);
     rewrite S1 in Ia, Ib; apply in_app_or in Ia as [Ia|[Ia|[]]]; [elim (S3 a Ia Ha)|]; apply in_app_or in Ib as [Ib|[Ib|[]]]; [elim (S3 b Ib Hb)|]; congruence).
  all: assert (NE : chl g R = [] \/ (0 < length (chl g R))%nat) by (destruct (chl g R); [now left|right; cbn; lia]); destruct NE as [NE|NE]; [rewrite (Leaf NE); apply conn_refl|]; clear Leaf.
  all: assert (Child : forall s Q, arr n s = Some Q -> In Q ls -> chl g Q = [] -> In R (ch Q) -> exists i, (i < length (chl g R))%nat /\ In (region_at (chl g R) i) (chn n ch s)) by
    (intros s Q E1 E2 E3 E4; assert (Ne : Q <> R) by (intros ->; rewrite E3 in NE; cbn in NE; lia); destruct (up_child _ _ ch U Q E2 R E4 Ne) as (r & X1 & X2 & X3);
     pose proof (proj2 (g_chl _ _ _ _ _ _ _ HG R r HR) (conj X3 X1)) as X; apply (In_nth _ _ 0%nat) in X as (i & I1 & I2); rewrite map_length in I1; exists i; split; [assumption|];
     unfold chn; rewrite E1; unfold region_at; rewrite Nat.mod_small by assumption; erewrite nth_indep in I2 by (now rewrite map_length); rewrite map_nth in I2; rewrite I2; exact X2).
  all: assert (InC : forall i, (i < length (chl g R))%nat -> In (region_at (chl g R) i) ls /\ bpar g (region_at (chl g R) i) = Some R) by
    (intros i Hi; apply (g_chl _ _ _ _ _ _ _ HG R _ HR); unfold region_at; rewrite Nat.mod_small by assumption; apply in_map; now apply nth_In).
  - exfalso. destruct (InC 0%nat NE) as [X1 X2]. pose proof (LC _ X1) as X3. rewrite (up_eq _ _ ch U _ X1), X2 in X3. cbn [length] in X3. lia.
  - assert (IC : forall i, (i < length (chl g R))%nat -> forall a b, In a ev -> In b ev -> In (region_at (chl g R) i) (chn n ch a) -> In (region_at (chl g R) i) (chn n ch b) -> conn G a b).
    { intros i Hi. destruct (InC i Hi) as [X1 X2]. apply (IH (region_at (chl g R) i)); [|assumption]. rewrite (up_eq _ _ ch U _ X1), X2. cbn [length]. lia. }
    assert (Step : forall i, (i < length (chl g R))%nat -> forall a b, In a ev -> In b ev -> In (region_at (chl g R) 0) (chn n ch a) -> In (region_at (chl g R) i) (chn n ch b) -> conn G a b).
    { induction i as [|i IHi]; intros Hi a' b' Ha' Hb' Ra' Rb'; [exact (IC 0%nat Hi a' b' Ha' Hb' Ra' Rb')|].
      destruct (g_cyc _ _ _ _ _ _ _ HG R i HR ltac:(lia)) as (s & s' & _ & _ & S1 & S2 & S3 & S4 & W).
      apply (conn_trans G a' s b'); [exact (IHi ltac:(lia) a' s Ha' S1 Ra' S3)|]. apply (conn_trans G s s' b'); [eexists; eexists; exact W|]. exact (IC (S i) Hi s' b' S2 Hb' S4 Rb'). }
    destruct (Child a Qa Aa HQa Ca Ra) as (i & Hi & Ri). destruct (Child b Qb Ab HQb Cb Rb) as (j & Hj & Rj).
    pose proof (g_evodd _ _ _ _ _ _ _ HG _ (proj1 (InC 0%nat NE))) as Od. destruct (filter _ ev) as [|z zs] eqn:Ef; [discriminate|]. assert (Hz : In z (filter (fun s => memb (region_at (chl g R) 0) (chn n ch s)) ev)) by (rewrite Ef; now left).
    apply filter_In in Hz as [Hz1 Hz2]. apply memb_In in Hz2. apply (conn_trans G a z b); [apply (conn_sym G WF)|]; [exact (Step i Hi z a Hz1 Ha Hz2 Ri)|exact (Step j Hj z b Hz1 Hb Hz2 Rj)].
Qed.

(** ** Together *)
Lemma reach_bound : forall F D, explains G F ev -> within G ev D -> forall R, In R ls -> zsum y (ch R) < D.
Proof.
  intros F D HF HW R HR. destruct (Z_lt_le_dec (zsum y (ch R)) D) as [|Big]; [assumption|exfalso].
  assert (Ex : forall Q, In Q ls -> exists s, In s ev /\ In Q (chn n ch s)).
  { intros Q HQ. pose proof (g_evodd _ _ _ _ _ _ _ HG Q HQ) as Od. destruct (filter _ ev) as [|z zs] eqn:Ef; [discriminate|]. assert (Hz : In z (filter (fun s => memb Q (chn n ch s)) ev)) by (rewrite Ef; now left).
    apply filter_In in Hz as [Hz1 Hz2]. apply memb_In in Hz2. eauto. }
  destruct (Ex R HR) as (s & Hs & Rs). pose proof (ev_lt G ev n g ls y ch HG s Hs) as Ls.
  destruct (chn_root G ev n g ls y ch HG s R Ls Rs) as (Q & Q1 & Q2 & Q3 & Q4). set (T := root ch R) in *.
  assert (HT : In T ls /\ In T (chn n ch s) /\ bpar g T = None).
  { destruct (root_spec _ _ ch U Q Q2) as (X1 & X2 & X3). rewrite Q3. split; [assumption|]. split; [|assumption]. unfold chn. now rewrite Q1. }
  destruct HT as (HT & Ts & Tb).
  assert (BY : D <= Yv n ch y s).
  { unfold Yv, chn. rewrite Q1. unfold chn in Rs. rewrite Q1 in Rs. destruct (up_suffix _ _ ch U Q Q2 R Rs) as [l E]. rewrite E, zsum_app.
    assert (0 <= zsum y l); [|lia]. apply zsum_nonneg. intros x Hx. apply (g_y0 _ _ _ _ _ _ _ HG). apply (up_all_L _ _ ch U Q Q2). rewrite E. apply in_or_app. now left. }
  assert (TT : forall a, In a ev -> (In T (chn n ch a) <-> top n a = top n s)).
  { intros a Ha. pose proof (ev_lt G ev n g ls y ch HG a Ha) as La. split; [intros Ta; exact (chn_tops G ev n g ls y ch HG a s T La Ls Ta Ts)|]. intros E. rewrite Q4 in E.
    destruct (g_ev _ _ _ _ _ _ _ HG a Ha) as (_ & Qa & Aa & _). rewrite (g_top _ _ _ _ _ _ _ HG a Qa La Aa) in E. injection E as E. unfold chn. rewrite Aa, <- E. apply (root_spec _ _ ch U Qa (g_arr _ _ _ _ _ _ _ HG a Qa La Aa)). }
  assert (CT : forall a, In a ev -> In T (chn n ch a) -> conn G s a) by (intros a Ha Ta; exact (region_conn (length ls - length (ch T)) T (le_n _) HT s a Hs Ha Ts Ta)).
  apply (no_odd_island G WF F ev (fun a => memb T (chn n ch a)) (g_evnd _ _ _ _ _ _ _ HG) HF (g_evodd _ _ _ _ _ _ _ HG T HT)).
  - intros a b Ha Hb Ta C. apply memb_In. apply (TT b Hb). apply memb_In in Ta.
    destruct (conn_trans G s a b (CT a Ha Ta) C) as (l & o & W). destruct (HW s (Some b) l o Hs Hb W) as (l' & o' & W' & Hl).
    assert (Dc : {top n b = top n s} + {top n b <> top n s}) by (repeat decide equality). destruct Dc as [|Ne]; [assumption|exfalso].
    pose proof (reach_out s (Some b) l' o' Hs (conj Hb Ne) W'). lia.
  - intros a l o Ha Ta P. apply memb_In in Ta. destruct (CT a Ha Ta) as (l1 & o1 & W). destruct P as (v & l' & o' & w & ob & P1 & P2 & P3 & P4).
    assert (PS : path G s None (l1 + l' + w) (N.lxor (N.lxor o1 o') ob)) by (exists v, (l1 + l'), (N.lxor o1 o'), w, ob; repeat split; [exact (walk_app G s a v l1 l' o1 o' W P1)|assumption]).
    destruct (HW s None _ _ Hs I PS) as (l2 & o2 & W2 & Hl). pose proof (reach_out s None l2 o2 Hs I W2). lia.
Qed.

(** A region some event of which is joined to something outside is smaller than the distance to it. *)
Lemma reach_room : forall D, joined_within G D -> forall R, In R ls -> room G ev n ch (root ch R) -> zsum y (ch R) < D.
Proof.
  intros D HJ R HR (s & x & l & o & Hs & Ts & P & Hx). set (T := root ch R) in *.
  pose proof (g_evodd _ _ _ _ _ _ _ HG R HR) as Od. destruct (filter _ ev) as [|z zs] eqn:Ef; [discriminate|]. assert (Hz : In z (filter (fun s => memb R (chn n ch s)) ev)) by (rewrite Ef; now left).
  clear Od Ef zs. apply filter_In in Hz as [Hz Rz]. apply memb_In in Rz. pose proof (ev_lt G ev n g ls y ch HG z Hz) as Lz.
  destruct (chn_root G ev n g ls y ch HG z R Lz Rz) as (Q & Q1 & Q2 & Q3 & Q4). fold T in Q3.
  assert (HT : In T ls /\ In T (chn n ch z) /\ bpar g T = None).
  { destruct (root_spec _ _ ch U Q Q2) as (X1 & X2 & X3). rewrite Q3. split; [assumption|]. split; [|assumption]. unfold chn. now rewrite Q1. }
  destruct HT as (HT & Tz & Tb).
  destruct (region_conn (length ls - length (ch T)) T (le_n _) HT z s Hz Hs Tz Ts) as (l1 & o1 & W).
  assert (PZ : exists l o, path G z x l o).
  { destruct x as [v|]; [exists (l1 + l), (N.lxor o1 o); exact (walk_app G z s v l1 l o1 o W P)|]. destruct P as (v & l' & o' & w & ob & P1 & P2 & P3 & P4).
    exists (l1 + l' + w), (N.lxor (N.lxor o1 o') ob), v, (l1 + l'), (N.lxor o1 o'), w, ob. repeat split; [exact (walk_app G z s v l1 l' o1 o' W P1)|assumption]. }
  destruct PZ as (l2 & o2 & P2). destruct (HJ z x l2 o2 P2) as (l' & o' & P' & HD).
  apply Z.le_lt_trans with (2 := HD). etransitivity; [|exact (cross_path z x l' o' P')].
  assert (B : 0 <= zsum (fun R => Z.abs (phi n ch y R (Some z) - phi n ch y R x)) (chn n ch z) <= zsum (fun R => Z.abs (phi n ch y R (Some z) - phi n ch y R x)) ls).
  { apply zsum_sub; [exact (chn_NoDup G ev n g ls y ch HG z Lz)|exact (chn_incl G ev n g ls y ch HG z Lz)|intros; lia]. }
  etransitivity; [|exact (proj2 B)].
  assert (BY : zsum y (ch R) <= zsum y (chn n ch z)).
  { unfold chn in *. rewrite Q1 in *. destruct (up_suffix _ _ ch U Q Q2 R Rz) as [m E]. rewrite E, zsum_app.
    assert (0 <= zsum y m); [|lia]. apply zsum_nonneg. intros q Hq. apply (g_y0 _ _ _ _ _ _ _ HG). apply (up_all_L _ _ ch U Q Q2). rewrite E. apply in_or_app. now left. }
  etransitivity; [exact BY|]. apply Z.eq_le_incl. apply zsum_ext. intros q Hq. rewrite (phi_event z q Hz Hq).
  assert (E : phi n ch y q x = y q).
  { destruct x as [v|]; [|reflexivity]. assert (Lv : (v < length G)%nat) by
      (destruct P' as [|v0 l0 o0 v1 w0 ob0 P' Hin]; [assumption|]; apply (wf_sym _ WF) in Hin; destruct (Nat.lt_ge_cases v1 (length G)) as [|Hge]; [assumption|]; unfold nbrs in Hin; rewrite nth_overflow in Hin by assumption; destruct Hin). apply (phi_out G ev n g ls y ch HG); [|assumption]. intros Hq'. apply Hx.
    destruct (chn_root G ev n g ls y ch HG v q Lv Hq') as (Qv & V1 & V2 & V3 & _). destruct (chn_root G ev n g ls y ch HG z q Lz Hq) as (Qz & Z1 & Z2 & Z3 & _).
    assert (ET : root ch q = T) by congruence. unfold chn. rewrite V1, <- ET, V3. apply (root_spec _ _ ch U Qv V2). }
  rewrite E. pose proof (g_y0 _ _ _ _ _ _ _ HG q (chn_incl G ev n g ls y ch HG z Lz q Hq)). lia.
Qed.
End Reach.
