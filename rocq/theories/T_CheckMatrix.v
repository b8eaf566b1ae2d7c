(** C36, C37: check matrices and sampled noise. *)
From Coq Require Import Arith ZArith List Bool.
From Verif Require Import M_Base M_UserGraph S_UserGraph S_GraphMap M_CheckMatrix S_CheckMatrix P_CheckMatrix P_CheckMatrix2 T_UserGraph.
Import ListNotations.

(** C36: the loaded graph has exactly one edge for each column and layer, between the column's rows in
    that layer (or to the boundary), with that column's attributes, and one time-like edge per row between
    consecutive layers; nothing else. Columns have their rows inside the matrix and pairwise different
    supports (empty columns excepted: they contribute nothing). *)
Theorem C36_check_matrix_edges :
  forall (N : numops) rows cols faults fr (ws ps : list (num N)) s virtual reps tws mes g,
  load_check_matrix rows cols faults fr ws ps s virtual reps tws mes = Ok g ->
  (forall c r, In c cols -> In r c -> r < rows) ->
  (forall i j c d, nth_error cols i = Some c -> nth_error cols j = Some d -> c <> [] -> same_support c d -> i = j) ->
  forall x y a, get_edge_data g x y = Some a <->
   (exists t i rs fs w p, t < reps /\ nth_error cols i = Some rs /\ nth_error faults i = Some fs /\
      nth_error ws i = Some w /\ nth_error ps i = Some p /\ column_joins rows reps virtual t rs x y /\ a = (fs, w, p)) \/
   (exists t row tw me w p, S t < reps /\ tws = Some tw /\ mes = Some me /\ nth_error tw row = Some w /\
      nth_error me row = Some p /\ time_joins rows t row x y /\ a = ([], w, p)).
Proof. exact @check_matrix_exact. Qed.
Print Assumptions C36_check_matrix_edges.

(** C36: the boundary and the number of nodes. *)
Theorem C36_check_matrix_boundary :
  forall (N : numops) rows cols faults fr (ws ps : list (num N)) s virtual reps tws mes g,
  load_check_matrix rows cols faults fr ws ps s virtual reps tws mes = Ok g ->
  (forall c r, In c cols -> In r c -> r < rows) ->
  let needs_boundary_node := virtual = false /\ 0 < reps /\ exists r, In [r] cols in
  (needs_boundary_node -> bnodes g = [rows * reps] /\ num_nodes g = rows * reps + 1) /\
  (~ needs_boundary_node -> bnodes g = [] /\ num_nodes g = rows * reps).
Proof. exact @check_matrix_boundary. Qed.
Print Assumptions C36_check_matrix_boundary.

(** C36: a matrix is rejected if a column has more than two ones or if an array has the wrong length. *)
Theorem C36_check_matrix_rejects :
  forall (N : numops) rows cols faults fr (ws ps : list (num N)) s virtual reps tws mes g,
  load_check_matrix rows cols faults fr ws ps s virtual reps tws mes = Ok g -> 0 < reps ->
  length ws = length cols /\ length ps = length cols /\ length faults = length cols /\
  (forall c, In c cols -> length c <= 2) /\
  (1 < reps -> exists t m, tws = Some t /\ mes = Some m /\ length t = rows /\ length m = rows).
Proof. exact @check_matrix_rejects. Qed.
Print Assumptions C36_check_matrix_rejects.

(** C36: every other matrix is accepted (unless parallel edges are disallowed). *)
Theorem C36_check_matrix_accepts :
  forall (N : numops) rows cols faults fr (ws ps : list (num N)) s virtual reps tws mes,
  length ws = length cols -> length ps = length cols -> length faults = length cols ->
  (forall c, In c cols -> length c <= 2) ->
  (1 < reps -> exists t m, tws = Some t /\ mes = Some m /\ length t = rows /\ length m = rows) -> s <> DISALLOW ->
  exists g, load_check_matrix rows cols faults fr ws ps s virtual reps tws mes = Ok g.
Proof. exact @check_matrix_accepts. Qed.
Print Assumptions C36_check_matrix_accepts.

Definition ex_load (virtual : bool) : outcome (ugraph ZN) :=
  @load_check_matrix ZN 3 [[0]; [0; 1]; []; [1; 2]; [2]] [[0]; []; [1]; [2]; [0; 3]] 4
    [5; 6; 7; 8; 9]%Z [0; 1; 0; 1; 1]%Z INDEPENDENT virtual 3 (Some [1; 2; 3]%Z) (Some [1; 0; 1]%Z).

Example C36_ex : match ex_load false with
  | Ok g => num_edges g = 18 /\ bnodes g = [9] /\ get_edge_data g 9 (Some 3) = Some ([0], 5%Z, 0%Z) /\
            get_edge_data g 7 (Some 8) = Some ([2], 8%Z, 1%Z) /\ get_edge_data g 7 (Some 4) = Some ([], 2%Z, 0%Z) /\
            get_edge_data g 3 (Some 2) = None
  | _ => False end.
Proof. vm_compute. repeat split; reflexivity. Qed.

Example C36_ex_hyp :
  let cols := [[0]; [0; 1]; []; [1; 2]; [2]] in
  (forall c r, In c cols -> In r c -> r < 3) /\
  (forall i j c d, nth_error cols i = Some c -> nth_error cols j = Some d -> c <> [] -> same_support c d -> i = j).
Proof.
  split.
  - intros c r Hc Hr. cbn in Hc. repeat (destruct Hc as [<-|Hc]; [cbn in Hr; repeat (destruct Hr as [<-|Hr]; [repeat constructor|]); destruct Hr|]). destruct Hc.
  - intros i j c d Hi Hj Hc HS.
    assert (HB : forall r, existsb (Nat.eqb r) c = existsb (Nat.eqb r) d).
    { intros r. apply eq_true_iff_eq. rewrite !existsb_exists. split; intros (q & Hq & E); apply Nat.eqb_eq in E; subst q; exists r; (split; [apply HS; exact Hq|apply Nat.eqb_refl]). }
    clear HS.
    do 5 (try destruct i as [|i]); do 5 (try destruct j as [|j]); cbn in Hi, Hj;
      try reflexivity; try discriminate; try (destruct i; discriminate); try (destruct j; discriminate);
      injection Hi as <-; injection Hj as <-; try (exfalso; apply Hc; reflexivity); exfalso;
      pose proof (HB 0) as H0; pose proof (HB 1) as H1; pose proof (HB 2) as H2; discriminate.
Qed.

Example C36_ex_three_ones :
  @load_check_matrix ZN 3 [[0; 1; 2]] [[0]] 1 [5]%Z [0]%Z INDEPENDENT true 1 None None = Throw.
Proof. reflexivity. Qed.

(** C37: for every outcome of the draws, the sampled fault vector is the parity of the fault ids of the
    flipped edges and the syndrome is the parity of the flipped edges at each node, boundary nodes reported
    as 0; nothing is written outside the arrays (the outcome is Ok). *)
Theorem C37_noise_is_consistent :
  forall (N : numops) n k ops draws, let g := run (new_graph N n k) ops in
  allp g = true -> fault_ids_in_range g -> length draws = length (edges g) ->
  exists errs syn, add_noise g draws = Ok (errs, syn) /\ length errs = nobs g /\ length syn = num_nodes g /\
    (forall i, i < nobs g -> nth i errs false = odd_count i (flat_map obs (flipped g draws))) /\
    (forall v, v < num_nodes g -> nth v syn false = if existsb (Nat.eqb v) (bnodes g) then false
                                  else odd_count v (flat_map ends (flipped g draws))).
Proof. exact @noise_consistent. Qed.
Print Assumptions C37_noise_is_consistent.

Definition ex_noise : ugraph ZN := run (new_graph ZN 2 0)
  [AddZ 0 (Some 1) [0; 2] 5%Z 1%Z DISALLOW; AddZ 1 (Some 2) [2; 1] 5%Z 1%Z DISALLOW; AddZ 2 None [1] 5%Z 0%Z DISALLOW;
   AddZ 0 (Some 3) [1] 5%Z 1%Z DISALLOW; OpSetBoundary [3]].

Example C37_ex : allp ex_noise = true /\ nobs ex_noise = 3 /\
  add_noise ex_noise [true; true; false; true] = Ok ([true; false; false], [false; false; true; false]).
Proof. vm_compute. auto. Qed.

Example C37_ex_hyp : fault_ids_in_range ex_noise.
Proof.
  intros e o He Ho. cbn in He. repeat (destruct He as [<-|He]; [cbn in Ho; repeat (destruct Ho as [<-|Ho]; [vm_compute; repeat constructor|]); destruct Ho|]). destruct He.
Qed.

(** C37: without probabilities on all edges nothing is sampled. *)
Theorem C37_no_noise_without_probabilities :
  forall (N : numops) (g : ugraph N) draws, allp g = false ->
  add_noise g draws = Ok (repeat false (nobs g), repeat false (num_nodes g)).
Proof. exact @noise_off. Qed.
Print Assumptions C37_no_noise_without_probabilities.

Example C37_off_ex : allp (run (new_graph ZN 2 0) [AddZ 0 (Some 1) [0] 5%Z (-1)%Z DISALLOW]) = false.
Proof. reflexivity. Qed.

(** C37: the hypothesis on the fault ids is needed: after a replacing merge (C27) the sampler writes outside
    the fault array. *)
Theorem C37_out_of_bounds_after_replace :
  forall (N : numops) (w p : num N), w_exceeds N w = false -> p_outside N p = false ->
  exists ops draws, add_noise (run (new_graph N 2 0) ops) draws = UB.
Proof.
  intros N w p Hw Hp. exists [OpAdd 0 (Some 1) [0] w p DISALLOW; OpAdd 0 (Some 1) [5] w p REPLACE], [true].
  cbn. unfold py_add. rewrite Hw. cbn. rewrite Hp. reflexivity.
Qed.
Print Assumptions C37_out_of_bounds_after_replace.

Example C37_out_of_bounds_ex : w_exceeds ZN 3%Z = false /\ p_outside ZN 1%Z = false.
Proof. auto. Qed.
