(** Reading a networkx or rustworkx graph. *)
From Coq Require Import Reals ZArith List Bool Arith Lia Lra Permutation Sorted Classical_Prop.
From Verif Require Import M_Base M_Dem P_Dem M_Merge P_Merge M_GraphIO M_Matching S_Matching S_GraphMap P_GraphMap P_Pipeline S_GraphIO M_UserGraph S_UserGraph P_UserGraph.
Import ListNotations.
Local Open Scope nat_scope.

(** ** Fault ids *)
Lemma set_insert_in : forall x l k, In k (set_insert x l) <-> k = x \/ In k l.
Proof.
  intros x l k. induction l as [|y l IH].
  - cbn. split; [intros [H|[]]; auto|intros [H|[]]; auto].
  - cbn [set_insert]. destruct (Nat.ltb_spec x y) as [L|L].
    + cbn. split; [intros [H|H]; auto|intros [H|H]; auto].
    + destruct (Nat.eqb_spec x y) as [E|E].
      * cbn. split; [intros H; right; exact H|]. intros [H|H]; [left; congruence|exact H].
      * cbn. rewrite IH. tauto.
Qed.
Lemma set_of_in : forall l k, In k (set_of l) <-> In k l.
Proof. intros l k. induction l as [|x l IH]; cbn; [tauto|]. rewrite set_insert_in. fold (set_of l). rewrite IH. split; intros [H|H]; auto. Qed.
Lemma set_insert_sorted : forall x l, StronglySorted lt l -> StronglySorted lt (set_insert x l).
Proof.
  intros x l H. induction H as [|y l H IH F]; cbn [set_insert]; [repeat constructor|]. destruct (Nat.ltb_spec x y); [|destruct (Nat.eqb_spec x y)].
  - constructor; [now constructor|]. constructor; [assumption|]. eapply Forall_impl; [|exact F]. cbn. intros. lia.
  - now constructor.
  - constructor; [exact IH|]. apply Forall_forall. intros z Hz. apply set_insert_in in Hz as [->|Hz]; [lia|]. rewrite Forall_forall in F. now apply F.
Qed.
Lemma set_of_sorted : forall l, StronglySorted lt (set_of l).
Proof. induction l as [|x l IH]; cbn; [constructor|]. now apply set_insert_sorted. Qed.
Lemma sorted_nodup : forall l, StronglySorted lt l -> NoDup l.
Proof. induction 1 as [|x l H IH F]; constructor; auto. intros Hx. rewrite Forall_forall in F. specialize (F x Hx). lia. Qed.
Lemma as_sizes_ok : forall l, (forall z, In z l -> (0 <= z)%Z) -> as_sizes l = Ok (map Z.to_nat l).
Proof.
  induction l as [|z l IH]; intros H; [reflexivity|]. cbn [as_sizes map]. unfold as_size. pose proof (H z (or_introl eq_refl)). destruct (Z.ltb_spec z 0); [lia|]. cbn [bindO]. rewrite IH by (intros y Hy; apply H; now right). reflexivity.
Qed.
Lemma as_sizes_inv : forall l, as_sizes l = Throw \/ (as_sizes l = Ok (map Z.to_nat l) /\ forall z, In z l -> (0 <= z)%Z).
Proof.
  induction l as [|z l IH]; [right; split; [reflexivity|intros z []]|]. cbn [as_sizes map]. unfold as_size. destruct (Z.ltb_spec z 0); [now left|]. cbn [bindO]. destruct IH as [->|[-> H']]; [now left|]. right. split; [reflexivity|]. intros y [<-|Hy]; auto.
Qed.
Lemma in_to_nat : forall l k, (forall z, In z l -> (0 <= z)%Z) -> (In k (map Z.to_nat l) <-> In (Z.of_nat k) l).
Proof.
  intros l k H. rewrite in_map_iff. split.
  - intros (z & <- & Hz). rewrite Z2Nat.id by (now apply H). exact Hz.
  - intros Hk. exists (Z.of_nat k). split; [apply Nat2Z.id|exact Hk].
Qed.
Lemma read_ids_cases : forall i, (read_ids i = Throw /\ forall S, ~ denotes i S) \/ exists o, read_ids i = Ok o /\ StronglySorted lt o /\ denotes i (fun k => In k o).
Proof.
  intros [z|l|]; cbn.
  - destruct (Z.eqb_spec z (-1)) as [->|N].
    + right. exists []. split; [reflexivity|]. split; [constructor|]. left. split; [reflexivity|]. intros k [].
    + unfold as_size. destruct (Z.ltb_spec z 0).
      * left. split; [reflexivity|]. intros S [[? _]|[? _]]; [contradiction|lia].
      * right. exists [Z.to_nat z]. split; [reflexivity|]. split; [repeat constructor|]. right. split; [assumption|]. intros k. cbn. split; [intros [<-|[]]; apply Z2Nat.id; assumption|]. intros <-. left. apply Nat2Z.id.
  - destruct (as_sizes_inv l) as [E|[E H]]; rewrite E.
    + left. split; [reflexivity|]. intros S [H _]. rewrite (as_sizes_ok l H) in E. discriminate.
    + right. exists (set_of (map Z.to_nat l)). split; [reflexivity|]. split; [apply set_of_sorted|]. split; [exact H|]. intros k. rewrite set_of_in. now apply in_to_nat.
  - left. split; [reflexivity|]. intros S [].
Qed.
Lemma fault_ids_cases : forall a : attrs RN, (fault_ids_of a = Throw /\ forall S, ~ meant a S) \/ exists o, fault_ids_of a = Ok o /\ StronglySorted lt o /\ meant a (fun k => In k o).
Proof.
  intros a. unfold fault_ids_of, meant. destruct (a_fault_ids a) as [i|], (a_qubit_id a) as [j|].
  - left. split; [reflexivity|]. intros S [].
  - apply read_ids_cases.
  - apply read_ids_cases.
  - right. exists []. split; [reflexivity|]. split; [constructor|]. intros k [].
Qed.
Lemma denotes_same : forall i S T, denotes i S -> denotes i T -> forall k, S k <-> T k.
Proof.
  intros [z|l|] S T HS HT k; cbn in *.
  - destruct HS as [[A1 A2]|[A1 A2]], HT as [[B1 B2]|[B1 B2]]; try lia; [specialize (A2 k); specialize (B2 k); tauto|]. rewrite A2, B2. tauto.
  - destruct HS as [_ A2], HT as [_ B2]. rewrite A2, B2. tauto.
  - destruct HS.
Qed.
Lemma meant_same : forall a S T, meant a S -> meant a T -> forall k, S k <-> T k.
Proof.
  intros a S T. unfold meant. destruct (a_fault_ids a) as [i|], (a_qubit_id a) as [j|]; try tauto; try apply denotes_same. intros A B k. specialize (A k). specialize (B k). tauto.
Qed.

(** ** Edges *)
Notation call_of u v o w p := (@OpAdd RN u (Some v) o w p SMALLEST_WEIGHT).
Definition reads (x : edge) (c : op RN) : Prop :=
  exists u v o, ends x = (Z.of_nat u, Z.of_nat v) /\ c = call_of u v o (meant_weight x) (meant_prob x) /\ meant (snd x) (fun k => In k o) /\ StronglySorted lt o.
Lemma smallest_quiet : forall (g : ugraph RN) u v o w p, snd (py_add g u v o w p SMALLEST_WEIGHT) = false.
Proof.
  intros g u v o w p. unfold py_add. destruct (w_exceeds RN w); [reflexivity|]. unfold add_or_merge. destruct (index_of_neighbor _ _ _); [|reflexivity]. unfold merge_edge. destruct (nth_error _ _); [|reflexivity]. cbn [edges]. destruct (w_ge RN w (weight u0)); reflexivity.
Qed.
Lemma read_edge_ok : forall x, (0 <= fst (ends x))%Z -> (0 <= snd (ends x))%Z -> (exists S, meant (snd x) S) -> exists c, reads x c /\ forall g, read_edge (N := RN) 1%R g x = Ok (apply_op g c).
Proof.
  intros [[u v] a] Hu Hv (S & HS). cbn in Hu, Hv, HS. destruct (fault_ids_cases a) as [[_ N]|(o & E & SO & MO)]; [elim (N S HS)|].
  exists (call_of (Z.to_nat u) (Z.to_nat v) o (meant_weight (u, v, a)) (meant_prob (u, v, a))). split.
  - exists (Z.to_nat u), (Z.to_nat v), o. cbn. rewrite !Z2Nat.id by assumption. auto.
  - intros g. unfold read_edge. rewrite E. cbn [bindO]. unfold as_size. destruct (Z.ltb_spec u 0); [lia|]. destruct (Z.ltb_spec v 0); [lia|]. cbn [bindO]. cbn [apply_op]. unfold meant_weight, meant_prob. cbn [snd].
    destruct (py_add g (Z.to_nat u) (Some (Z.to_nat v)) o _ _ _) as [g' r] eqn:EP. pose proof (f_equal snd EP) as Q. rewrite smallest_quiet in Q. cbn in Q. subst r. reflexivity.
Qed.
Lemma read_edge_inv : forall g x, read_edge (N := RN) 1%R g x = Throw \/ ((0 <= fst (ends x))%Z /\ (0 <= snd (ends x))%Z /\ exists S, meant (snd x) S).
Proof.
  intros g [[u v] a]. cbn. destruct (fault_ids_cases a) as [[-> _]|(o & -> & _ & MO)]; [now left|]. cbn. unfold as_size. destruct (Z.ltb_spec u 0); [now left|]. destruct (Z.ltb_spec v 0); [now left|]. right. split; [assumption|]. split; [assumption|]. eauto.
Qed.
Lemma read_edges_ok : forall xs, (forall x, In x xs -> (0 <= fst (ends x))%Z /\ (0 <= snd (ends x))%Z /\ exists S, meant (snd x) S) ->
  exists ops, Forall2 reads xs ops /\ forall g, read_edges (N := RN) 1%R g xs = Ok (run g ops).
Proof.
  induction xs as [|x xs IH]; intros H; [exists []; split; [constructor|reflexivity]|]. destruct IH as (ops & F & E); [intros y Hy; apply H; now right|]. destruct (H x (or_introl eq_refl)) as (H1 & H2 & H3).
  destruct (read_edge_ok x H1 H2 H3) as (c & R & Ec). exists (c :: ops). split; [now constructor|]. intros g. cbn [read_edges]. rewrite Ec. cbn [bindO]. rewrite E. reflexivity.
Qed.
Lemma read_edges_inv : forall xs g, read_edges (N := RN) 1%R g xs = Throw \/ forall x, In x xs -> (0 <= fst (ends x))%Z /\ (0 <= snd (ends x))%Z /\ exists S, meant (snd x) S.
Proof.
  induction xs as [|x xs IH]; intros g; [right; intros x []|]. cbn [read_edges]. destruct (read_edge_inv g x) as [->|H]; [now left|]. destruct H as (H1 & H2 & H3). destruct (read_edge_ok x H1 H2 H3) as (c & _ & Ec). rewrite Ec. cbn [bindO].
  destruct (IH (apply_op g c)) as [E|E]; [left; exact E|]. right. intros y [<-|Hy]; auto.
Qed.
Lemma flagged_in : forall (G : pygraph RN) z, In z (map fst (filter snd (py_nodes G))) <-> In (z, true) (py_nodes G).
Proof.
  intros G z. rewrite in_map_iff. split.
  - intros ([y b] & <- & H). apply filter_In in H as [H E]. cbn in *. now subst.
  - intros H. exists (z, true). split; [reflexivity|]. apply filter_In. auto.
Qed.
Definition started (G : pygraph RN) (least : nat) : ugraph RN := set_boundary (new_graph RN (length (py_nodes G)) least) (set_of (map Z.to_nat (map fst (filter snd (py_nodes G))))).
Definition or_zero (k : option nat) : nat := match k with Some k => k | None => 0 end.
Lemma read_graph_ok : forall G k, readable G -> exists ops, Forall2 reads (py_edges G) ops /\ read_graph (N := RN) 1%R G k = Ok (run (started G (or_zero k)) ops).
Proof.
  intros G k [H1 H2]. destruct (read_edges_ok (py_edges G) H2) as (ops & F & E). exists ops. split; [exact F|]. unfold read_graph. rewrite as_sizes_ok by (intros z Hz; apply H1; now apply flagged_in). cbn [bindO]. exact (E _).
Qed.
Lemma read_graph_refused : forall G k, ~ readable G -> read_graph (N := RN) 1%R G k = Throw.
Proof.
  intros G k N. unfold read_graph. destruct (as_sizes_inv (map fst (filter snd (py_nodes G)))) as [->|[-> H]]; [reflexivity|]. cbn [bindO]. match goal with |- read_edges _ ?g _ = _ => destruct (read_edges_inv (py_edges G) g) as [E|E] end; [exact E|].
  elim N. split; [|exact E]. intros z Hz. apply H. now apply flagged_in.
Qed.

(** ** What is stored *)
Lemma Rleb_true : forall a b, Rleb a b = true <-> (a <= b)%R.
Proof. intros a b. unfold Rleb. destruct (Rle_dec a b); split; auto; try discriminate; contradiction. Qed.
Lemma kept_iff : forall x, kept x <-> w_exceeds RN (meant_weight x) = false.
Proof. intros x. unfold kept. cbn. destruct (Rltb max_user_weight (Rabs (meant_weight x))) eqn:E; [apply Rltb_true in E; split; [lra|discriminate]|]. apply Rltb_false in E. tauto. Qed.
Lemma between_pair : forall x u v a b, ends x = (Z.of_nat a, Z.of_nat b) -> (between u v x <-> same_pair a (Some b) u (Some v) = true).
Proof.
  intros x u v a b E. unfold between. rewrite E, same_pair_spec. split.
  - intros [H|H]; injection H as H1 H2; apply Nat2Z.inj in H1, H2; subst; [left|right]; auto.
  - intros [[-> H]|[H1 H2]]; [injection H as ->; now left|]. injection H1 as ->. injection H2 as ->. now right.
Qed.
Lemma op_calls_app : forall a b : list (op RN), op_calls (a ++ b) = op_calls a ++ op_calls b.
Proof. intros a b. unfold op_calls. apply flat_map_app. Qed.
Lemma effects_app : forall u v (a : option (attr RN)) c d, effects u v a (c ++ d) = effects u v (effects u v a c) d.
Proof. intros. unfold effects. apply fold_left_app. Qed.
Definition told (xs : list edge) (u v : nat) (r : option (attr RN)) : Prop :=
  match r with
  | Some (o, w, p) => exists x, first_lightest xs u v x /\ meant (snd x) (fun k => In k o) /\ StronglySorted lt o /\ w = meant_weight x /\ p = meant_prob x
  | None => forall x, In x xs -> kept x -> ~ between u v x
  end.
Lemma first_more : forall xs u v x y, first_lightest xs u v x -> (between u v y -> kept y -> (meant_weight x <= meant_weight y)%R) -> first_lightest (xs ++ [y]) u v x.
Proof.
  intros xs u v x y (B & K & l1 & l2 & -> & H1 & H2) H. split; [exact B|]. split; [exact K|]. exists l1, (l2 ++ [y]). split; [now rewrite <- app_assoc|]. split; [exact H1|]. intros z Hz. apply in_app_or in Hz as [Hz|[<-|[]]]; auto.
Qed.
Lemma first_least : forall xs u v x, first_lightest xs u v x -> forall y, In y xs -> between u v y -> kept y -> (meant_weight x <= meant_weight y)%R.
Proof.
  intros xs u v x (B & K & l1 & l2 & -> & H1 & H2) y Hy By Ky. apply in_app_or in Hy as [Hy|[<-|Hy]]; [left; now apply H1|lra|now apply H2].
Qed.
Lemma stored : forall ops xs, Forall2 reads xs ops -> forall u v, told xs u v (effects u (Some v) None (op_calls ops)).
Proof.
  induction ops as [|c ops IH] using rev_ind; intros xs F u v.
  - inversion F; subst. cbn. intros x [].
  - apply Forall2_app_inv_r in F as (xs' & l & F & Fl & ->). inversion Fl as [|x ? l' ? R Fl']; subst. inversion Fl'; subst. clear Fl Fl'. specialize (IH xs' F u v). rewrite op_calls_app, effects_app.
    set (r := effects u (Some v) None (op_calls ops)) in *. destruct R as (a & b & o & E & -> & M & SO). cbn [op_calls flat_map]. destruct (w_exceeds RN (meant_weight x)) eqn:W.
    + assert (NK : ~ kept x) by (rewrite kept_iff, W; discriminate). cbn [app]. unfold effects. cbn [fold_left]. destruct r as [[[o' w'] p']|]; cbn [told] in *.
      * destruct IH as (y & FL & H). exists y. split; [|exact H]. apply first_more; [exact FL|]. intros _ K. elim NK; exact K.
      * intros y Hy Ky. apply in_app_or in Hy as [Hy|[<-|[]]]; [now apply IH|contradiction].
    + assert (K : kept x) by (now rewrite kept_iff). cbn [app]. unfold effects. cbn [fold_left]. unfold effect. cbn [c_u c_v c_obs c_w c_p c_s]. pose proof (between_pair x u v a b E) as BP. destruct (same_pair a (Some b) u (Some v)) eqn:SP.
      * assert (B : between u v x) by (now apply BP). destruct r as [[[o' w'] p']|]; cbn [told] in *.
        -- destruct IH as (y & FL & My & Sy & -> & ->). cbn [merged]. cbn [w_ge RN]. destruct (Rleb (meant_weight y) (meant_weight x)) eqn:L.
           ++ apply Rleb_true in L. cbn [told]. exists y. split; [apply first_more; auto|auto].
           ++ assert (L' : (meant_weight x < meant_weight y)%R). { destruct (Rlt_le_dec (meant_weight x) (meant_weight y)) as [Q|Q]; [exact Q|]. apply Rleb_true in Q. congruence. }
              cbn [told]. exists x. split; [|auto]. split; [exact B|]. split; [exact K|]. exists xs', []. split; [reflexivity|]. split; [|intros z []]. intros z Hz Bz Kz. pose proof (first_least _ _ _ _ FL z Hz Bz Kz). lra.
        -- exists x. split; [|auto]. split; [exact B|]. split; [exact K|]. exists xs', []. split; [reflexivity|]. split; [|intros z []]. intros z Hz Bz Kz. elim (IH z Hz Kz Bz).
      * assert (B : ~ between u v x) by (rewrite BP; discriminate). destruct r as [[[o' w'] p']|]; cbn [told] in *.
        -- destruct IH as (y & FL & H). exists y. split; [|exact H]. apply first_more; [exact FL|]. intros Q. contradiction.
        -- intros y Hy Ky. apply in_app_or in Hy as [Hy|[<-|[]]]; [now apply IH|exact B].
Qed.
Lemma none_virtual : forall ops xs, Forall2 reads xs ops -> forall u, effects u None None (op_calls ops) = None.
Proof.
  intros ops xs F u. induction F as [|x c xs ops R F IH]; [reflexivity|]. destruct R as (a & b & o & E & -> & _). cbn [op_calls flat_map]. destruct (w_exceeds _ _); [exact IH|]. cbn [app]. unfold effects in *. cbn [fold_left]. unfold effect at 2. cbn [c_u c_v].
  destruct (same_pair a (Some b) u None) eqn:SP; [|exact IH]. apply same_pair_spec in SP as [[_ H]|[H _]]; discriminate.
Qed.
Lemma adds_bnodes : forall ops xs, Forall2 reads xs ops -> forall g, Inv g -> bnodes (run g ops) = bnodes g.
Proof.
  intros ops xs F. induction F as [|x c xs ops R F IH]; intros g HI; [reflexivity|]. change (run g (c :: ops)) with (run (apply_op g c) ops). rewrite IH by (now apply apply_op_inv). destruct R as (a & b & o & E & -> & _). cbn [apply_op]. unfold py_add. destruct (w_exceeds _ _); [reflexivity|].
  exact (proj2 (proj2 (proj2 (proj2 (call_effect (N := RN) g (mkCall (N := RN) a (Some b) o (meant_weight x) (meant_prob x) SMALLEST_WEIGHT) HI))))).
Qed.

(** ** Sizes *)
Lemma smallest_iff : forall P n, (forall k, P k <-> n <= k) -> smallest P n.
Proof. intros P n H. split; [now apply H|]. intros k. apply H. Qed.
Lemma fold_max_le : forall l a k, fold_left Nat.max l a <= k <-> a <= k /\ forall x, In x l -> x <= k.
Proof.
  induction l as [|x l IH]; intros a k; cbn; [split; [intros H; split; [exact H|intros x []]|tauto]|]. rewrite IH. split.
  - intros [H1 H2]. split; [lia|]. intros y [<-|Hy]; [lia|auto].
  - intros [H1 H2]. split; [pose proof (H2 x (or_introl eq_refl)); lia|]. intros y Hy. apply H2. now right.
Qed.
Lemma raise_le : forall o n k, raise_nobs n o <= k <-> n <= k /\ forall i, In i o -> i < k.
Proof.
  intros o. unfold raise_nobs. induction o as [|x o IH]; intros n k; cbn [fold_left]; [split; [intros H; split; [exact H|intros i []]|tauto]|]. rewrite IH. destruct (Nat.ltb_spec n (x + 1)); split.
  - intros [H1 H2]. split; [lia|]. intros i [<-|Hi]; [lia|auto].
  - intros [H1 H2]. pose proof (H2 x (or_introl eq_refl)). split; [lia|]. intros i Hi. apply H2. now right.
  - intros [H1 H2]. split; [lia|]. intros i [<-|Hi]; [lia|auto].
  - intros [H1 H2]. split; [lia|]. intros i Hi. apply H2. now right.
Qed.
Lemma need_le : forall b k, fold_right (fun u k => Nat.max (S u) k) 0 b <= k <-> forall v, In v b -> v < k.
Proof.
  induction b as [|x b IH]; intros k; cbn [fold_right]; [split; [intros _ v []|lia]|]. split.
  - intros H v [<-|Hv]; [lia|]. apply IH; [lia|exact Hv].
  - intros H. pose proof (H x (or_introl eq_refl)). assert (Q : fold_right (fun u k => Nat.max (S u) k) 0 b <= k) by (apply IH; intros v Hv; apply H; now right). lia.
Qed.
Lemma started_inv : forall G k, Inv (started G k).
Proof. intros G k. apply set_boundary_inv, new_inv. Qed.
Lemma started_run : forall G k, started G k = run (new_graph RN (length (py_nodes G)) k) [@OpSetBoundary RN (set_of (map Z.to_nat (map fst (filter snd (py_nodes G)))))].
Proof. reflexivity. Qed.
Lemma flagged_set : forall (G : pygraph RN) v, readable G -> (In v (set_of (map Z.to_nat (map fst (filter snd (py_nodes G))))) <-> In (Z.of_nat v, true) (py_nodes G)).
Proof. intros G v [H _]. rewrite set_of_in, in_to_nat by (intros z Hz; apply H; now apply flagged_in). apply flagged_in. Qed.
Lemma started_nodes : forall G k n, readable G -> (length (nodes (started G k)) <= n <-> length (py_nodes G) <= n /\ forall v, In (Z.of_nat v, true) (py_nodes G) -> v < n).
Proof.
  intros G k n RG. rewrite started_run, run_nodes by apply new_inv. rewrite fold_max_le. cbn [map In nodes_needed nodes new_graph]. rewrite repeat_length. split; intros [H1 H2]; (split; [exact H1|]).
  - intros v Hv. apply (proj1 (need_le _ n) (H2 _ (or_introl eq_refl))). now apply flagged_set.
  - intros x [<-|[]]. apply need_le. intros v Hv. apply H2. now apply flagged_set.
Qed.
Lemma reads_needed : forall xs ops, Forall2 reads xs ops -> forall n, (forall k, In k (map nodes_needed ops) -> k <= n) <-> forall x u v, In x xs -> kept x -> between u v x -> u < n.
Proof.
  intros xs ops F n. induction F as [|x c xs ops R F IH]; [split; [intros _ x u v []|intros _ k []]|]. destruct R as (a & b & o & E & -> & _). cbn [map nodes_needed].
  assert (Q : (if w_exceeds RN (meant_weight x) then 0 else S (Nat.max a b)) <= n <-> forall u v, kept x -> between u v x -> u < n).
  { pose proof (kept_iff x) as K. destruct (w_exceeds RN (meant_weight x)); [split; [intros _ u v Kx; apply K in Kx; discriminate|lia]|]. split.
    - intros H u v _ B. apply (between_pair x u v a b E) in B. apply same_pair_spec in B as [[-> _]|[_ B]]; [lia|injection B as ->; lia].
    - intros H. pose proof (H a b (proj2 K eq_refl) (or_introl E)). pose proof (H b a (proj2 K eq_refl) (or_intror E)). lia. }
  split.
  - intros H y u v [<-|Hy] Ky B; [apply (proj1 Q (H _ (or_introl eq_refl)) u v Ky B)|]. apply (proj1 IH) with (x := y) (v := v); auto. intros k Hk. apply H. now right.
  - intros H k [<-|Hk]; [apply Q; intros u v Ky B; apply (H x u v); auto; now left|]. revert k Hk. apply IH. intros y u v Hy. apply H. now right.
Qed.
Lemma last_split : forall A (l1 l2 xs : list A) x y, xs ++ [y] = l1 ++ x :: l2 -> (l1 = xs /\ x = y /\ l2 = []) \/ exists l2', l2 = l2' ++ [y] /\ xs = l1 ++ x :: l2'.
Proof.
  intros A l1 l2 xs x y E. destruct l2 as [|z l2] using rev_ind.
  - apply app_inj_tail in E as [-> ->]. auto.
  - clear IHl2. rewrite app_comm_cons, app_assoc in E. apply app_inj_tail in E as [-> ->]. right. eauto.
Qed.
Lemma stored_run : forall xs ops, Forall2 reads xs ops -> forall g, Inv g -> edges g = [] -> forall u v, told xs u v (get_edge_data (run g ops) u (Some v)).
Proof. intros xs ops F g HI E u v. rewrite run_is_map by exact HI. rewrite data_none by first [exact HI | intros e He; rewrite E in He; destruct He]. now apply stored. Qed.
Lemma run_nobs : forall ops xs, Forall2 reads xs ops -> forall g, Inv g -> edges g = [] -> forall n, nobs (run g ops) <= n <-> nobs g <= n /\ forall x S k, first xs x -> meant (snd x) S -> S k -> k < n.
Proof.
  induction ops as [|c ops IH] using rev_ind; intros xs F g HI E0 n.
  - inversion F; subst. split; [intros H; split; [exact H|]; intros x S k (_ & l1 & l2 & E & _); destruct l1; discriminate|]. intros [H _]. exact H.
  - apply Forall2_app_inv_r in F as (xs' & l & F & Fl & ->). inversion Fl as [|x ? l' ? R Fl']; subst. inversion Fl'; subst. clear Fl Fl'. specialize (IH xs' F g HI E0 n). pose proof (run_inv ops g HI) as HI'.
    unfold run in *. rewrite fold_left_app. cbn [fold_left]. fold (run g ops) in *. destruct R as (a & b & o & E & -> & M & _). cbn [apply_op].
    assert (FO : forall y, first xs' y -> first (xs' ++ [x]) y). { intros y (Ky & l1 & l2 & -> & H). split; [exact Ky|]. exists l1, (l2 ++ [x]). split; [now rewrite <- app_assoc|exact H]. }
    assert (OF : forall y, first (xs' ++ [x]) y -> first xs' y \/ (y = x /\ kept x /\ forall z u v, In z xs' -> kept z -> between u v z -> ~ between u v x)).
    { intros y (Ky & l1 & l2 & Es & H). apply last_split in Es as [(-> & -> & ->)|(l2' & -> & ->)]; [right; auto|]. left. split; [exact Ky|]. exists l1, l2'. auto. }
    assert (same : (first (xs' ++ [x]) x -> first xs' x) -> nobs (run g ops) <= n <-> nobs g <= n /\ forall y S k, first (xs' ++ [x]) y -> meant (snd y) S -> S k -> k < n).
    { intros HS. rewrite IH. split; intros [H1 H2]; (split; [exact H1|]); intros y S k Fy.
      - apply H2. destruct (OF y Fy) as [?|[-> _]]; auto.
      - apply H2. now apply FO. }
    unfold py_add. destruct (w_exceeds RN (meant_weight x)) eqn:W.
    + cbn [fst]. apply same. intros (K & _). apply kept_iff in K. congruence.
    + pose proof (stored_run xs' ops F g HI E0 a b) as T. destruct (find_edge (edges (run g ops)) a (Some b)) as [(i & e & Hi & J)|NO].
      * rewrite (add_or_merge_old _ _ _ _ _ _ _ i e HI' Hi J). rewrite (proj1 (proj2 (proj2 (merge_shape _ _ _ _ _ _)))). apply same. intros Fx. destruct (OF x Fx) as [?|(_ & _ & NB)]; [assumption|].
        rewrite (data_some (run g ops) a (Some b) e HI' (nth_error_In _ _ Hi) J) in T. destruct T as (y & (B & K & l1 & l2 & Es & _) & _). elim (NB y a b); auto; [rewrite Es; apply in_or_app; right; now left|]. now left.
      * destruct (add_or_merge_new (N := RN) (run g ops) a (Some b) o (meant_weight x) (meant_prob x) SMALLEST_WEIGHT HI' NO) as (g' & Eg & _ & _ & _ & En & _). rewrite Eg. cbn [fst]. rewrite En, raise_le, IH.
        rewrite (data_none (run g ops) a (Some b) HI' NO) in T. cbn [told] in T.
        assert (Fx : first (xs' ++ [x]) x).
        { split; [now apply kept_iff|]. exists xs', []. split; [reflexivity|]. intros y u v Hy Ky By Bx. apply (T y Hy Ky). unfold between in *. rewrite E in Bx. destruct By as [By|By], Bx as [Bx|Bx]; rewrite By; injection Bx as Q1 Q2; rewrite Q1, Q2; auto. }
        split.
        -- intros [[H1 H2] H3]. split; [exact H1|]. intros y S k Fy My Sk. destruct (OF y Fy) as [?|[-> _]]; [now apply (H2 y S k)|]. apply H3. apply (meant_same _ _ _ My M). exact Sk.
        -- intros [H1 H2]. split; [split; [exact H1|]|]; [intros y S k Fy; apply H2; now apply FO|]. intros k Hk. exact (H2 x _ k Fx M Hk).
Qed.

Lemma reading : forall G k, readable G -> exists g, read_graph (N := RN) 1%R G k = Ok g /\ Inv g /\ flags_ok RN g /\ described G (or_zero k) g.
Proof.
  intros G k RG. destruct (read_graph_ok G k RG) as (ops & F & E). set (k' := or_zero k) in *. set (g0 := started G k') in *. exists (run g0 ops). split; [exact E|]. assert (I0 : Inv g0) by apply started_inv. assert (E0 : edges g0 = []) by reflexivity. split; [now apply run_inv|]. split.
  { unfold g0. rewrite started_run. apply flags_run, flags_run, flags_new. }
  pose proof (stored_run (py_edges G) ops F g0 I0 E0) as T. constructor.
  - intros u v o w p H. specialize (T u v). rewrite H in T. exact T.
  - intros u v x Hx K B H. specialize (T u v). rewrite H in T. exact (T x Hx K B).
  - intros u. rewrite run_is_map by exact I0. rewrite data_none by first [exact I0 | intros e He; rewrite E0 in He; destruct He]. exact (none_virtual ops (py_edges G) F u).
  - intros v. rewrite (adds_bnodes ops (py_edges G) F g0 I0). exact (flagged_set G v RG).
  - rewrite (adds_bnodes ops (py_edges G) F g0 I0). apply sorted_nodup, set_of_sorted.
  - apply smallest_iff. intros n. unfold num_nodes. rewrite run_nodes by exact I0. rewrite fold_max_le, (reads_needed _ _ F). unfold g0. rewrite (started_nodes G k' n RG). tauto.
  - apply smallest_iff. intros n. rewrite (run_nobs ops (py_edges G) F g0 I0 E0). reflexivity.
Qed.
