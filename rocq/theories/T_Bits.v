(** C23, C24, C38: observable masks, bit-packed batches, syndrome arrays. *)
From Coq Require Import ZArith List Bool.
From Verif Require Import M_Base M_Bits S_Bits P_Bits.
Import ListNotations.
Open Scope Z_scope.

(** C23, expansion: for at most 64 observables, expanding a mask XORs bit j of the mask into byte j of
    the output, for every j below the number of observables, and touches nothing else. *)
Theorem C23_mask_expands_to_its_bits :
  forall mask n buf,
    (n <= 64)%nat -> (forall b, In b buf -> is_bit b) -> (n <= length buf)%nat ->
    exists buf', fill_bit_vector_from_obs_mask mask buf n = Ok buf' /\ length buf' = length buf /\
      (forall j, nth j buf' 0 =
         if (j <? n)%nat then Z.b2z (xorb (nth j buf 0 =? 1) (Z.testbit mask (Z.of_nat j))) else nth j buf 0).
Proof. exact fill_ok. Qed.
Print Assumptions C23_mask_expands_to_its_bits.

Example C23_expand_ex :
  fill_bit_vector_from_obs_mask (2 ^ 63 + 5) (repeat 0 64) 64 = Ok ([1; 0; 1] ++ repeat 0 60 ++ [1]).
Proof. vm_compute. reflexivity. Qed.

(** C23, more than 64 observables are rejected. *)
Theorem C23_more_than_64_rejected :
  forall mask n buf, (64 < n)%nat -> fill_bit_vector_from_obs_mask mask buf n = Throw.
Proof. exact fill_throws. Qed.
Print Assumptions C23_more_than_64_rejected.

Example C23_reject_ex : fill_bit_vector_from_obs_mask 3 (repeat 0 65) 65 = Throw.
Proof. reflexivity. Qed.

(** C23, round trip. Full statement: for every n <= 64 and every mask below 2^n,
    bit_vector_to_obs_mask (expansion of mask) = mask. It holds for n <= 31 only (see the refutations
    below): what is missing is n = 32..64, where it is false of the code. *)
Theorem C23_round_trip_partial :
  forall mask n, 0 <= mask < 2 ^ Z.of_nat n -> (n <= 31)%nat ->
  exists bits, fill_bit_vector_from_obs_mask mask (repeat 0 n) n = Ok bits /\ bit_vector_to_obs_mask bits = Ok mask.
Proof. exact fill_then_collect. Qed.
Print Assumptions C23_round_trip_partial.

Example C23_round_trip_ex :
  exists bits, fill_bit_vector_from_obs_mask 1073741829 (repeat 0 31) 31 = Ok bits /\ nth 30 bits 0 = 1 /\
    bit_vector_to_obs_mask bits = Ok 1073741829.
Proof. eexists. split; [vm_compute; reflexivity|]. vm_compute. auto. Qed.

(** C23, refuted for 32 observables: the mask {31} comes back with the 32 upper bits set. *)
Theorem C23_round_trip_refuted :
  exists mask n bits mask', 0 <= mask < 2 ^ Z.of_nat n /\ (n <= 64)%nat /\
    fill_bit_vector_from_obs_mask mask (repeat 0 n) n = Ok bits /\
    bit_vector_to_obs_mask bits = Ok mask' /\ mask' <> mask.
Proof.
  exists (2 ^ 31), 32%nat, (repeat 0 31 ++ [1]), 18446744071562067968.
  repeat split; try (vm_compute; congruence). apply Nat.leb_le. reflexivity.
Qed.
Print Assumptions C23_round_trip_refuted.

(** C23, refuted for 33 observables and more: the conversion executes an undefined shift. *)
Theorem C23_round_trip_undefined_refuted :
  exists mask n bits, 0 <= mask < 2 ^ Z.of_nat n /\ (n <= 64)%nat /\
    fill_bit_vector_from_obs_mask mask (repeat 0 n) n = Ok bits /\ bit_vector_to_obs_mask bits = UB.
Proof.
  exists (2 ^ 32), 33%nat, (repeat 0 32 ++ [1]).
  repeat split; try (vm_compute; congruence). apply Nat.leb_le. reflexivity.
Qed.
Print Assumptions C23_round_trip_undefined_refuted.

(** C24, reading: the detection events of a bit-packed shot are exactly the set bits, in increasing
    order; those of an unpacked shot are exactly its nonzero entries. *)
Theorem C24_packed_shot_reads_its_bits :
  forall bytes, lists_exactly (packed_events 0 bytes) (fun i => packed_bit bytes i = true).
Proof. exact packed_lists. Qed.
Print Assumptions C24_packed_shot_reads_its_bits.

Theorem C24_unpacked_shot_reads_its_entries :
  forall l, lists_exactly (nonzero_positions 0 l) (fun i => nth i l 0 <> 0).
Proof. exact unpacked_lists. Qed.
Print Assumptions C24_unpacked_shot_reads_its_entries.

(** C24: a bit-packed shot and the unpacked form of the same shot give the same detection events. *)
Theorem C24_packed_equals_unpacked :
  forall bytes l, packs bytes l -> packed_events 0 bytes = nonzero_positions 0 l.
Proof. exact packed_eq_unpacked. Qed.
Print Assumptions C24_packed_equals_unpacked.

Example C24_read_ex :
  packed_events 0 [130; 5] = [1; 7; 8; 10]%nat /\
  nonzero_positions 0 [0; 1; 0; 0; 0; 0; 0; 1; 1; 0; 1] = [1; 7; 8; 10]%nat.
Proof. vm_compute. auto. Qed.

(** C24, writing: packing succeeds, has (n+7)/8 bytes, bit i is prediction i, padding bits are zero
    ([packs] quantifies over all positions, [nth] being 0 beyond the end). *)
Theorem C24_packed_predictions_are_exact :
  forall preds, (forall p, In p preds -> is_bit p) ->
  exists row, pack_loop 0 preds (repeat 0 (packed_len (length preds))) = Ok row /\
    length row = packed_len (length preds) /\ bytes_ok row /\ packs row preds.
Proof. exact pack_ok. Qed.
Print Assumptions C24_packed_predictions_are_exact.

Example C24_write_ex :
  pack_loop 0 [1; 0; 1; 0; 0; 0; 0; 1; 0; 1] (repeat 0 (packed_len 10)) = Ok [133; 2].
Proof. vm_compute. reflexivity. Qed.

(** C24, batches: whenever decoding from any idle decoder state gives a result that depends only on the
    detection events and leaves the decoder idle (what C06 is about), a batch of any number of shots
    succeeds and row i is the result of decoding shot i on its own. *)
Theorem C24_batch_equals_single_decodes :
  forall (S W : Type) (dec : S -> list nat -> list Z -> outcome (S * list Z * W)) (idle : S -> Prop)
         (result : list nat -> list Z * W) (num_obs : nat),
    (forall s ev, idle s ->
       exists s', dec s ev (repeat 0 num_obs) = Ok (s', fst (result ev), snd (result ev)) /\ idle s') ->
    (forall ev, length (fst (result ev)) = num_obs /\ forall p, In p (fst (result ev)) -> is_bit p) ->
    forall (ps pp : bool) shots s, idle s ->
    exists s' rows, decode_batch S dec num_obs ps pp s shots = Ok (s', rows) /\ idle s' /\
      Forall2 (fun shot (r : list Z * W) =>
        let ev := if ps then packed_events 0 shot else nonzero_positions 0 shot in
        snd r = snd (result ev) /\
        if pp then length (fst r) = packed_len num_obs /\ bytes_ok (fst r) /\ packs (fst r) (fst (result ev))
        else fst r = fst (result ev)) shots rows.
Proof. exact batch_ok. Qed.
Print Assumptions C24_batch_equals_single_decodes.

(** A decoder that meets the hypotheses: it counts its calls and predicts the parity of the events. *)
Definition toy_dec (s : nat) (ev : list nat) (buf : list Z) : outcome (nat * list Z * Z) :=
  bindO (store buf 0 (fun b => Z.lxor b (Z.of_nat (length ev) mod 2))) (fun b => Ok (Datatypes.S s, b, Z.of_nat (length ev))).

Example C24_batch_ex :
  decode_batch nat toy_dec 9 true true 0%nat [[3; 1]; [0; 0]; [255]] = Ok (3%nat, [([1; 0], 3); ([0; 0], 0); ([0; 0], 8)]).
Proof. vm_compute. reflexivity. Qed.

Example C24_batch_hyp_ex :
  forall s ev, True -> exists s', toy_dec s ev (repeat 0 1) =
    Ok (s', fst ([Z.of_nat (length ev) mod 2], Z.of_nat (length ev)), snd ([Z.of_nat (length ev) mod 2], Z.of_nat (length ev))) /\ True.
Proof. intros. exists (Datatypes.S s). split; [reflexivity|exact I]. Qed.

(** C38: a 1D array is accepted iff its length is in range; the events are its nonzero positions, in
    increasing order. *)
Theorem C38_syndrome_1d :
  forall num_detectors num_boundary z,
    (num_detectors <= length z <= num_detectors + num_boundary)%nat ->
    exists ev, syndrome_to_detection_events num_detectors num_boundary (Syn1 z) = Ok ev /\
      lists_exactly ev (fun i => nth i z 0 <> 0).
Proof. exact syn1_ok. Qed.
Print Assumptions C38_syndrome_1d.

Theorem C38_syndrome_1d_rejected :
  forall num_detectors num_boundary z,
    ~ (num_detectors <= length z <= num_detectors + num_boundary)%nat ->
    syndrome_to_detection_events num_detectors num_boundary (Syn1 z) = Throw.
Proof. exact syn_reject1. Qed.
Print Assumptions C38_syndrome_1d_rejected.

(** C38: a 2D array (rows = checks, columns = rounds) is accepted iff its size is the number of
    detectors; the events are exactly t * (number of checks) + c for the nonzero entries (c, t), in
    increasing order. *)
Theorem C38_syndrome_2d :
  forall num_detectors num_boundary ncols rows,
    (length rows * ncols)%nat = num_detectors ->
    exists ev, syndrome_to_detection_events num_detectors num_boundary (Syn2 ncols rows) = Ok ev /\
      lists_exactly ev (fun i => exists t c, (t < ncols /\ c < length rows /\ i = t * length rows + c)%nat /\
                                   nth t (nth c rows []) 0 <> 0).
Proof. exact syn2_ok. Qed.
Print Assumptions C38_syndrome_2d.

Theorem C38_syndrome_2d_rejected :
  forall num_detectors num_boundary ncols rows,
    (length rows * ncols)%nat <> num_detectors ->
    syndrome_to_detection_events num_detectors num_boundary (Syn2 ncols rows) = Throw.
Proof. exact syn_reject2. Qed.
Print Assumptions C38_syndrome_2d_rejected.

Example C38_ex :
  syndrome_to_detection_events 6 1 (Syn1 [0; 1; 0; 0; 0; 1; 0]) = Ok [1; 5]%nat /\
  syndrome_to_detection_events 6 1 (Syn2 3 [[0; 1; 1]; [1; 0; 1]]) = Ok [1; 2; 4; 5]%nat /\
  syndrome_to_detection_events 6 1 (Syn1 [1; 1]) = Throw /\
  syndrome_to_detection_events 6 1 (Syn2 2 [[0; 1]; [1; 0]]) = Throw.
Proof. vm_compute. auto. Qed.
