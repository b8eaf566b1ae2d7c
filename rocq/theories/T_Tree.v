(** C20: splitting odd cycles.  C21: re-rooting alternating trees.  C22: lowest common ancestors. *)
From Coq Require Import ZArith NArith List Arith Lia Bool Permutation.
From Verif Require Import M_Base M_Varying M_Tracker M_Core S_Tree P_Cycle P_Tree3.
Import ListNotations.
Local Open Scope nat_scope.

(** ** C20 *)

(** Final extraction: child number [idx] is matched outside; the others are paired with cycle neighbours,
    each exactly once, along the edge between them. *)
Theorem C20_extraction_pairs : forall cyc idx, Nat.odd (length cyc) = true -> idx < length cyc ->
  Permutation (region_at cyc idx :: pair_regions (child_pairs cyc idx)) (map fst cyc) /\
  Forall (fun x => cyc_link cyc (fst (fst x)) (snd (fst x)) (snd x)) (child_pairs cyc idx).
Proof. exact child_pairs_spec. Qed.
Print Assumptions C20_extraction_pairs.

(** Shattering while trees grow: the child facing the parent and the child facing the tree child are joined
    by an alternating path along the cycle; all children not on it are paired with cycle neighbours. *)
Theorem C20_shatter_split : forall cyc pi ci, Nat.odd (length cyc) = true -> pi < length cyc -> ci < length cyc ->
  let (pairs, seg) := split_cycle cyc pi ci in
  Permutation (pair_regions pairs ++ seg_regions seg ++ [region_at cyc ci]) (map fst cyc) /\
  Forall (fun x => cyc_link cyc (fst (fst x)) (snd (fst x)) (snd x)) pairs /\
  seg_path cyc (region_at cyc pi) seg (region_at cyc ci).
Proof. exact split_cycle_spec. Qed.
Print Assumptions C20_shatter_split.

Definition ed (a b : nat) : cedge := mkE (Some a) (Some b) 1%N.
Definition five : list (nat * cedge) := [(10, ed 0 1); (11, ed 1 2); (12, ed 2 3); (13, ed 3 4); (14, ed 4 0)].
Example C20_example :
  Nat.odd (length five) = true /\
  child_pairs five 3 = [(14, 10, ed 4 0); (11, 12, ed 1 2)] /\
  split_cycle five 1 3 = ([(14, 10, ed 4 0)], [(11, 12, ed 1 2, ed 2 3)]) /\
  split_cycle five 1 4 = ([(12, 13, ed 2 3)], [(11, 10, ed 1 0, ed 0 4)]).
Proof. repeat split. Qed.

(** ** C21 *)
Theorem C21_become_root : forall A s a, forest A (tr s) -> A a ->
  (exists k0, forall k, k0 <= k -> exists s', become_root k s a = Ok s') /\
  forall k s', become_root k s a = Ok s' ->
    s' = set_tr s (tr s') /\ forest A (tr s') /\ par (tr s') a = None /\
    (forall b, A b -> (anc (tr s') b a <-> exists r, anc (tr s) a r /\ anc (tr s) b r)) /\
    (forall i o e, connection A (tr s) i o e <-> connection A (tr s') i o e) /\
    (forall b q, A b -> anc (tr s) a b -> par (tr s) b = Some q -> par (tr s') q = Some b) /\
    (forall b, A b -> ~ anc (tr s) a b -> par (tr s') b = par (tr s) b /\ ped (tr s') b = ped (tr s) b /\
       inn (tr s') b = inn (tr s) b /\ i2o (tr s') b = i2o (tr s) b /\ kid (tr s') b = kid (tr s) b).
Proof. exact reroot. Qed.
Print Assumptions C21_become_root.

(** A tree 0 - 1 - 2 with a further child 3 of 1, and a single root 4. *)
Definition par_ex (b : nat) : option nat := match b with 1 => Some 0 | 2 => Some 1 | 3 => Some 1 | _ => None end.
Definition t_ex : treesM :=
  mkT (fun b => match b with 1 => Some 11 | 2 => Some 12 | 3 => Some 13 | _ => None end)
      (fun b => if b <? 5 then Some (20 + b) else None)
      (fun b => match b with 1 => ed 111 121 | 2 => ed 112 122 | 3 => ed 113 123 | _ => cedge_null end)
      par_ex
      (fun b => match b with 1 => ed 211 120 | 2 => ed 212 121 | 3 => ed 213 121 | _ => cedge_null end)
      (fun b => match b with 0 => [(1, ed 120 211)] | 1 => [(2, ed 121 212); (3, ed 121 213)] | _ => [] end)
      (fun _ => false).
Definition s_ex : state := set_tr init_state t_ex.
Lemma forest_ex : forest (fun b => b < 5) (tr s_ex).
Proof.
  split; cbn [tr s_ex set_tr t_ex par kid inn out ped par_ex].
  - exists (fun b => b). intros b q Hb E. destruct b as [|[|[|[|b]]]]; simpl in E; try discriminate; injection E as <-; lia.
  - intros b q Hb E. destruct b as [|[|[|[|b]]]]; simpl in E; try discriminate; injection E as <-; simpl; auto.
  - intros a b e Ha Hin. destruct a as [|[|a]]; simpl in Hin; [destruct Hin as [E|[]]|destruct Hin as [E|[E|[]]]|destruct Hin];
      injection E as <- <-; repeat split; lia.
  - intros a Ha. destruct a as [|[|a]]; simpl; repeat constructor; simpl; intuition lia.
  - intros b Hb. destruct (Nat.ltb_spec b 5); [discriminate|lia].
  - intros b Hb. destruct b as [|[|[|[|b]]]]; simpl; split; congruence.
  - intros b b' i Hb Hb'. destruct b as [|[|[|[|b]]]]; destruct b' as [|[|[|[|b']]]]; simpl; congruence.
Qed.
Example C21_example : exists s', become_root 5 s_ex 2 = Ok s' /\ map (par (tr s')) [0; 1; 2; 3; 4] = [Some 1; Some 2; None; Some 1; None] /\
  map (inn (tr s')) [0; 1; 2; 3; 4] = [Some 11; Some 12; None; Some 13; None] /\ kid (tr s') 1 = [(0, ed 121 111); (3, ed 121 213)].
Proof. eexists. split; [vm_compute; reflexivity|]. split; [reflexivity|]. split; reflexivity. Qed.

(** ** C22 *)
Theorem C22_common_ancestor : forall A s a b, forest A (tr s) -> A a -> A b -> a <> b ->
  (forall y, A y -> vis (tr s) y = false) ->
  (exists k0, forall k, k0 <= k -> exists s' r, most_recent_common_ancestor k s a b = Ok (s', r)) /\
  forall k s' r, most_recent_common_ancestor k s a b = Ok (s', r) ->
    (exists v, s' = set_tr s (mkT (inn (tr s)) (out (tr s)) (i2o (tr s)) (par (tr s)) (ped (tr s)) (kid (tr s)) v)) /\
    match r with
    | Some x => A x /\ anc (tr s) a x /\ anc (tr s) b x /\
        (forall y, anc (tr s) a y -> anc (tr s) b y -> anc (tr s) x y) /\
        (forall y, A y -> (vis (tr s') y = true <-> (anc (tr s) a y \/ anc (tr s) b y) /\ ~ anc (tr s) x y))
    | None =>
        (forall y, anc (tr s) a y -> anc (tr s) b y -> False) /\
        (forall y, A y -> (vis (tr s') y = true <-> anc (tr s) a y \/ anc (tr s) b y))
    end.
Proof. exact common_ancestor. Qed.
Print Assumptions C22_common_ancestor.
Example C22_example :
  (exists s', most_recent_common_ancestor 20 s_ex 2 3 = Ok (s', Some 1) /\ map (vis (tr s')) [0; 1; 2; 3; 4] = [false; false; true; true; false]) /\
  (exists s', most_recent_common_ancestor 20 s_ex 0 2 = Ok (s', Some 0)) /\
  (exists s', most_recent_common_ancestor 20 s_ex 4 2 = Ok (s', None)).
Proof.
  split; [|split].
  - eexists. split; [vm_compute; reflexivity|reflexivity].
  - eexists. vm_compute. reflexivity.
  - eexists. vm_compute. reflexivity.
Qed.

(** Finding: for nodes of different trees the marks are not removed (both trees are destroyed right
    afterwards by handle_tree_hitting_other_tree). *)
Theorem C22_marks_between_trees_refuted : exists s a b s' y,
  forest (fun b => b < 5) (tr s) /\ (forall y, y < 5 -> vis (tr s) y = false) /\
  most_recent_common_ancestor 20 s a b = Ok (s', None) /\ y < 5 /\ vis (tr s') y = true.
Proof.
  exists s_ex, 4, 2. eexists. exists 1. split; [exact forest_ex|]. split; [reflexivity|].
  split; [vm_compute; reflexivity|]. split; [lia|reflexivity].
Qed.
Print Assumptions C22_marks_between_trees_refuted.
