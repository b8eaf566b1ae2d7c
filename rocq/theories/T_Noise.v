(** C67: what add_noise samples can be decoded.

    Whatever numbers are drawn, the two arrays that Matching.add_noise returns are the observables that the flipped edges flip and their detection events, as an
    array that decode accepts.  Decoding it raises no exception and predicts the sampled observables, up to those of a set of edges without detection events;
    the reported weight is not more than that of the flipped edges.  Below half the distance the prediction is what was sampled.  The numbers drawn are arguments of
    the model.  Merging parallel edges is in exact real numbers, the discretisation and the reported weight in binary64; the decoder runs on radix heaps and 32-bit times. *)
From Coq Require Import Reals ZArith List Bool Arith Lia Lra.
From Verif Require Import M_Base M_Bits M_Core M_CoreHeap M_Merge S_Distance M_Noise M_Matching S_Matching P_Matching P_Pipeline P_Pipeline3 T_Pipeline T_Matching M_UserGraph S_UserGraph P_UserGraph S_Pipeline S_Noise P_Noise.
Import ListNotations.
Local Open Scope nat_scope.

Theorem C67_decodable : forall n k cs draws, let g := fold_left after cs (new_graph RN n k) in let F := flipped_edges (edges g) draws in
  all_fair (new_graph RN n k) cs -> allp g = true -> usable g -> length draws = length (edges g) -> manageable g F ->
  exists noise syn K m' rs row w, py_add_noise g draws = Ok (Some (noise, syn)) /\
    (forall fuel, K <= fuel -> mrun fuel cyclic_ints (new_matching (new_graph RN n k)) (cs ++ [AskDecode (Syn1 syn)]) = Ok (m', rs ++ [Row row w])) /\
    noise = observables_of g F /\ syn = syndrome_of g F /\ differ_by_cycle g row noise /\ no_heavier g w F.
Proof. exact noise_decodable. Qed.
Print Assumptions C67_decodable.
Theorem C67_corrected : forall n k cs draws M D, let g := fold_left after cs (new_graph RN n k) in let F := flipped_edges (edges g) draws in
  all_fair (new_graph RN n k) cs -> allp g = true -> usable g -> length draws = length (edges g) -> manageable g F ->
  (forall e, In e (edges g) -> (0 <= weight e <= M)%R) -> (0 <= M)%R -> graph_distance g D -> under_half (integer_weights g) (length (edges g) + length F) M (total_weight F) D ->
  exists noise syn K m' rs w, py_add_noise g draws = Ok (Some (noise, syn)) /\
    (forall fuel, K <= fuel -> mrun fuel cyclic_ints (new_matching (new_graph RN n k)) (cs ++ [AskDecode (Syn1 syn)]) = Ok (m', rs ++ [Row noise w])).
Proof. exact noise_corrected. Qed.
Print Assumptions C67_corrected.
(** Edges with probability 0 are never flipped, those with probability 1 always, if the numbers are at least 0 and less than 1. *)
Theorem C67_certain : forall (g : ugraph RN) draws i e b, length draws = length (edges g) -> (forall r, In r draws -> (0 <= r < 1)%R) -> nth_error (edges g) i = Some e -> nth_error (hits g draws) i = Some b ->
  (prob e = 0%R -> b = false) /\ (prob e = 1%R -> b = true).
Proof. exact hits_certain. Qed.
Print Assumptions C67_certain.
(** Without the probabilities of all edges, None is returned. *)
Theorem C67_none : forall g draws, allp g = false -> py_add_noise g draws = Ok None.
Proof. exact noise_none. Qed.
Print Assumptions C67_none.

(** ** Cases that meet the hypotheses *)
(** A path from the virtual boundary to the declared boundary node 2, with distance 6.  The edge in the middle is flipped, which flips observable 1 and gives two events. *)
Definition path_e (i : nat) : uedge RN := match i with 0 => @mkE RN 0 None [0] (3/2)%R (1/10)%R | 1 => @mkE RN 0 (Some 1) [1] 2%R (1/10)%R | _ => @mkE RN 1 (Some 2) [] (5/2)%R (1/10)%R end.
Definition path_calls : list mcall := [Modify (@OpAdd RN 0 None [0] (3/2)%R (1/10)%R DISALLOW); Modify (@OpAdd RN 0 (Some 1) [1] 2%R (1/10)%R DISALLOW); Modify (@OpAdd RN 1 (Some 2) [] (5/2)%R (1/10)%R DISALLOW); Modify (OpSetBoundary [2])].
Definition path_draws : list R := [(1/2)%R; (1/20)%R; (9/10)%R].
Lemma path_graph : let g := fold_left after path_calls (new_graph RN 0 0) in edges g = [path_e 0; path_e 1; path_e 2] /\ bnodes g = [2] /\ num_nodes g = 3 /\ nobs g = 2 /\ allp g = true.
Proof.
  assert (V : Rleb 0 (1/10) = true /\ Rleb (1/10) 1 = true) by (unfold Rleb; split; destruct (Rle_dec _ _); (reflexivity || (exfalso; lra))). destruct V as [V1 V2].
  assert (O : Rltb (1/10) 0 = false /\ Rltb 1 (1/10) = false) by (unfold Rltb; split; destruct (Rlt_dec _ _); (reflexivity || (exfalso; lra))). destruct O as [O1 O2].
  unfold path_calls. cbn [fold_left after apply_op]. unfold py_add. rewrite !T_Pipeline.fits by lra.
  cbn -[Rleb Rltb Rdiv]. repeat (rewrite ?V1, ?V2, ?O1, ?O2; cbn -[Rleb Rltb Rdiv]). repeat split; reflexivity.
Qed.
Lemma path_flipped : flipped_edges [path_e 0; path_e 1; path_e 2] path_draws = [path_e 1].
Proof. unfold path_draws. cbn [flipped_edges path_e prob]. destruct (Rlt_dec (1/2) (1/10)); [exfalso; lra|]. destruct (Rlt_dec (1/20) (1/10)); [|exfalso; lra]. destruct (Rlt_dec (9/10) (1/10)); [exfalso; lra|]. reflexivity. Qed.
Example C67_example : let g := fold_left after path_calls (new_graph RN 0 0) in let F := flipped_edges (edges g) path_draws in
  all_fair (new_graph RN 0 0) path_calls /\ allp g = true /\ usable g /\ length path_draws = length (edges g) /\ F = [path_e 1] /\ manageable g F /\
  (forall e, In e (edges g) -> (0 <= weight e <= 5/2)%R) /\ graph_distance g 6 /\ under_half (integer_weights g) (length (edges g) + length F) (5/2) (total_weight F) 6 /\
  observables_of g F = [0; 1]%Z /\ syndrome_of g F = [1; 1; 0]%Z.
Proof.
  pose proof path_graph as P. cbv zeta in *. set (g := fold_left after path_calls (new_graph RN 0 0)) in *. clearbody g. destruct P as (P1 & P2 & P3 & P4 & P5).
  assert (POS : forall e, In e (edges g) -> (0 <= weight e <= 5/2)%R). { rewrite P1. intros e [<-|[<-|[<-|[]]]]; cbn; lra. }
  assert (FE : flipped_edges (edges g) path_draws = [path_e 1]) by (rewrite P1; exact path_flipped). rewrite FE.
  split; [repeat split|]. split; [exact P5|]. split; [|split; [rewrite P1; reflexivity|split; [reflexivity|split; [|split; [exact POS|split; [|split; [|split]]]]]]].
  - split; [|split; [apply (scalable_some g (path_e 1)); [rewrite P1; cbn; tauto|]; cbn; rewrite Rabs_right; lra|exact (harmless_nonneg g (fun e He => proj1 (POS e He)))]]. intros e o. rewrite P1, P4. intros [<-|[<-|[<-|[]]]]; cbn; lia.
  - left. exists []. split; [|left; cbn; lia]. intros e He Hw. pose proof (POS e He). lra.
  - intros F k (ND & IN & HO) Hk HF. rewrite P1 in IN. rewrite P2 in HO. assert (H0 : Nat.odd (total_degree 0 F) <> true) by (intros H; apply HO in H; [auto|cbn; lia]). assert (H1 : Nat.odd (total_degree 1 F) <> true) by (intros H; apply HO in H; [auto|cbn; lia]). clear HO.
    destruct F as [|a F]; [discriminate HF|]. assert (LF : length (a :: F) <= 3) by (exact (NoDup_incl_length ND IN)). pose proof (IN a (or_introl eq_refl)) as Ia. destruct F as [|b F].
    { exfalso. destruct Ia as [<-|[<-|[<-|[]]]]; cbn in H0, H1; tauto. }
    pose proof (IN b (or_intror (or_introl eq_refl))) as Ib. apply NoDup_cons_iff in ND as [Na ND]. destruct F as [|c F].
    { exfalso. destruct Ia as [<-|[<-|[<-|[]]]], Ib as [<-|[<-|[<-|[]]]]; cbn in H0, H1, Na; tauto. }
    pose proof (IN c (or_intror (or_intror (or_introl eq_refl)))) as Ic. apply NoDup_cons_iff in ND as [Nb ND]. destruct F; [|cbn in LF; lia].
    destruct Ia as [<-|[<-|[<-|[]]]], Ib as [<-|[<-|[<-|[]]]], Ic as [<-|[<-|[<-|[]]]]; cbn [In] in Na, Nb; try (exfalso; tauto); cbn; lra.
  - right. rewrite P1. unfold half_step. cbn [length total_weight fold_right path_e weight]. replace (INR (3 + 1)) with 4%R by (cbn; lra). change (2 * (2 ^ 24 - 1))%Z with 33554430%Z. change (2 ^ 20)%Z with 1048576%Z. lra.
  - unfold observables_of. rewrite P4. reflexivity.
  - unfold syndrome_of. rewrite P3, P2. reflexivity.
Qed.
Definition sure_graph : ugraph RN := @mkG RN [] [@mkE RN 0 None [0] 1%R 0%R; @mkE RN 0 (Some 1) [] 1%R 1%R] [] 1 true false.
Example C67_certain_example : (forall r, In r [0%R; (99/100)%R] -> (0 <= r < 1)%R) /\ hits sure_graph [0%R; (99/100)%R] = [false; true].
Proof.
  split; [intros r [<-|[<-|[]]]; lra|]. unfold hits. cbn. unfold Rltb. destruct (Rlt_dec 0 0); [exfalso; lra|]. destruct (Rlt_dec (99/100) 1); [reflexivity|exfalso; lra].
Qed.
Example C67_none_example : allp (fst (py_add (new_graph RN 0 0) 0 None [0] (3/2)%R (-1)%R DISALLOW)) = false.
Proof. unfold py_add. rewrite T_Pipeline.fits by lra. assert (V : Rltb (-1) 0 = true) by (unfold Rltb; destruct (Rlt_dec _ _); (reflexivity || (exfalso; lra))). cbn -[Rleb Rltb Rdiv]. now rewrite V. Qed.
