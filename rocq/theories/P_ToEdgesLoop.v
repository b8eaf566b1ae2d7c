(** Decoding to edges with a negative self-loop. *)
From Coq Require Import ZArith NArith List Bool Arith Lia Permutation.
From Verif Require Import M_Base M_Core M_Session S_Core S_Session M_Build S_Build S_Decode M_Flip S_Flip M_Search M_ToEdges S_ToEdges.
Import ListNotations.
Local Open Scope nat_scope.

Definition loop_ex : list sedge := [(0, Some 1, 2%Z, []); (0, Some 0, (-4)%Z, [0])].
Lemma negative_loop_omitted : exists E g sg s' s2 q' M' o w l out, build 1 2 E = Ok g /\ sbuild 2 E = Ok sg /\
  ForallOrdPairs (fun e f => ~ parallel e f) E /\ (forall e, In e E -> Z.even (s_weight e) = true) /\
  decode (adj g) 100 (fun _ => 0) exact_ints (neg_info_of 1 g []) init_state [0; 1] = Ok (s', (o, w, l)) /\
  decode_to_edges (adj g) (sadj sg) 100 100 (fun _ => 0) (fun _ => 0) exact_ints (neg_info_of 1 g []) (sneg sg) init_state search_init (marks_of sg) [0; 1]
    = Ok (s2, q', M', out) /\
  ~ exists X, lists_edges out (select E X) /\ s_total (select E X) = w.
Proof.
  pose (g := mkG [[(Some 1, 2%Z, 0%N)]; [(Some 0, 2%Z, 0%N)]] [] [0] (-4)%Z). pose (sg := mkSG [[(Some 1, 2%Z, 0%N)]; [(Some 0, 2%Z, 0%N)]] [[0%N]; [0%N]] []).
  assert (D : match decode (adj g) 100 (fun _ => 0) exact_ints (neg_info_of 1 g []) init_state [0; 1] with Ok (_, (_, w, _)) => w | _ => 0%Z end = (-2)%Z) by (vm_compute; reflexivity).
  assert (T : match decode_to_edges (adj g) (sadj sg) 100 100 (fun _ => 0) (fun _ => 0) exact_ints (neg_info_of 1 g []) (sneg sg) init_state search_init (marks_of sg) [0; 1]
     with Ok (_, _, _, out) => out | _ => [] end = [(0, Some 1)]) by (vm_compute; reflexivity).
  destruct (decode (adj g) 100 (fun _ => 0) exact_ints (neg_info_of 1 g []) init_state [0; 1]) as [[s' [[o w] l]]| | |] eqn:D'; [|discriminate D..]. 
  destruct (decode_to_edges (adj g) (sadj sg) 100 100 (fun _ => 0) (fun _ => 0) exact_ints (neg_info_of 1 g []) (sneg sg) init_state search_init (marks_of sg) [0; 1])
    as [[[[s2 q'] M'] out]| | |] eqn:T'; [|discriminate T..]. subst out.
  subst w. exists loop_ex, g, sg, s', s2, q', M', o, (-2)%Z, l, [(0, Some 1)]. split; [vm_compute; reflexivity|]. split; [vm_compute; reflexivity|]. split; [repeat constructor; simpl; intuition congruence|].
  split; [intros e He; simpl in He; intuition; subst e; reflexivity|]. split; [exact D'|]. split; [exact T'|].
  intros (X & (L & P & F) & HT). apply Permutation_length in P. inversion F as [|? e0 ? L0 ? F0]; subst. inversion F0; subst. cbn in P.
  destruct X as [|[|] [|[|] X]]; cbn in P, HT; discriminate.
Qed.
