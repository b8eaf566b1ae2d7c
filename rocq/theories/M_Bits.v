(** Model of the conversions between observable masks, byte vectors, bit-packed arrays and lists of
    detection events (driver/mwpm_decoding.cc, driver/user_graph.pybind.cc, src/pymatching/matching.py).
    Bytes (uint8_t) are integers in [0,256); an index is a natural number. *)
From Coq Require Import ZArith List Bool.
From Verif Require Import M_Base M_Cyclic.
Import ListNotations.
Open Scope Z_scope.

(** Replaces element [i] of a buffer; writing outside the buffer is undefined behaviour. *)
Fixpoint store (buf : list Z) (i : nat) (f : Z -> Z) : outcome (list Z) :=
  match buf, i with
  | [], _ => UB
  | b :: buf', O => Ok (f b :: buf')
  | b :: buf', S i' => bindO (store buf' i' f) (fun r => Ok (b :: r))
  end.

(** The conversion of an integer to uint8_t. *)
Definition u8 (x : Z) : Z := x mod 256.

(** mwpm_decoding.cc:57-58, for i = k, ..., n-1 *)
Fixpoint fill_loop (obs_mask : Z) (buf : list Z) (k n : nat) : outcome (list Z) :=
  match n with
  | O => Ok buf
  | S n' =>
      bindO (store buf k (fun b => u8 (Z.lxor b (Z.shiftr (Z.land obs_mask (Z.shiftl 1 (Z.of_nat k))) (Z.of_nat k)))))
            (fun buf' => fill_loop obs_mask buf' (S k) n')
  end.

(** mwpm_decoding.cc:53-59 fill_bit_vector_from_obs_mask; obs_int has 64 bits. *)
Definition fill_bit_vector_from_obs_mask (obs_mask : Z) (buf : list Z) (num_observables : nat) : outcome (list Z) :=
  if (64 <? num_observables)%nat then Throw else fill_loop obs_mask buf 0 num_observables.

(** The expression [bit_vector[i] << i] of mwpm_decoding.cc:68: the uint8_t operand is promoted to a
    32-bit int, so the shift is undefined for i >= 32; for i < 32 it wraps to a 32-bit int (C++20). *)
Definition int32_of (x : Z) : Z := (x + 2 ^ 31) mod 2 ^ 32 - 2 ^ 31.
Definition shift_as_int (b : Z) (i : nat) : outcome Z :=
  if (32 <=? i)%nat then UB else Ok (int32_of (Z.shiftl b (Z.of_nat i))).

(** mwpm_decoding.cc:66-69; the int is converted to the 64-bit obs_int (sign extension). *)
Fixpoint obs_mask_loop (bits : list Z) (i : nat) (obs_mask : Z) : outcome Z :=
  match bits with
  | [] => Ok obs_mask
  | b :: bits' => bindO (shift_as_int b i) (fun x => obs_mask_loop bits' (S i) (Z.lxor obs_mask (x mod 2 ^ 64)))
  end.

(** mwpm_decoding.cc:61-70 bit_vector_to_obs_mask *)
Definition bit_vector_to_obs_mask (bit_vector : list Z) : outcome Z :=
  if (64 <? length bit_vector)%nat then Throw else obs_mask_loop bit_vector 0 0.

(** user_graph.pybind.cc:299-305: the set bits of one byte at column j, r = 0..7. *)
Definition byte_events (j : nat) (b : Z) : list nat :=
  flat_map (fun r => if Z.land b (Z.shiftl 1 (Z.of_nat r)) =? 0 then [] else [(8 * j + r)%nat]) (seq 0 8).

(** user_graph.pybind.cc:298-305: detection events of a bit-packed shot; [j] is the first column. *)
Fixpoint packed_events (j : nat) (bytes : list Z) : list nat :=
  match bytes with
  | [] => []
  | b :: bytes' => byte_events j b ++ packed_events (S j) bytes'
  end.

(** user_graph.pybind.cc:307-310: detection events of an unpacked shot. Also matching.py:210
    (z.nonzero()[0] for a 1D array). *)
Fixpoint nonzero_positions (j : nat) (l : list Z) : list nat :=
  match l with
  | [] => []
  | b :: l' => (if b =? 0 then [] else [j]) ++ nonzero_positions (S j) l'
  end.

(** user_graph.pybind.cc:318-321: bit-packing of the predictions, from observable k on. *)
Fixpoint pack_loop (k : nat) (preds : list Z) (row : list Z) : outcome (list Z) :=
  match preds with
  | [] => Ok row
  | p :: preds' =>
      bindO (store row (Nat.div k 8) (fun b => u8 (Z.lxor b (Z.shiftl p (Z.of_nat (Nat.modulo k 8))))))
            (fun row' => pack_loop (S k) preds' row')
  end.

(** Number of bytes of a bit-packed row, user_graph.pybind.cc:276-277: (n + 7) >> 3. *)
Definition packed_len (n : nat) : nat := Nat.div (n + 7) 8.

Section Batch.
(** [dec] stands for decode_detection_events (mwpm_decoding.cc:196-248): it takes the decoder state,
    the detection events and a zero-initialised prediction buffer, and returns the new state, the
    buffer and the weight (of any type; in decode_batch it is divided by the normalising constant, line 331). *)
Variables S W : Type.
Variable dec : S -> list nat -> list Z -> outcome (S * list Z * W).

(** user_graph.pybind.cc:296-333: one shot of decode_batch: (state, prediction row, weight). *)
Definition decode_one (num_obs : nat) (packed_shots packed_preds : bool) (s : S) (shot : list Z) : outcome (S * list Z * W) :=
  let events := if packed_shots then packed_events 0 shot else nonzero_positions 0 shot in
  if packed_preds then
    bindO (dec s events (repeat 0 num_obs)) (fun '(s', temp, w) =>
    bindO (pack_loop 0 temp (repeat 0 (packed_len num_obs))) (fun row => Ok (s', row, w)))
  else dec s events (repeat 0 num_obs).

(** user_graph.pybind.cc:295-334: all shots, reusing the decoder. *)
Fixpoint decode_batch (num_obs : nat) (packed_shots packed_preds : bool) (s : S) (shots : list (list Z))
  : outcome (S * list (list Z * W)) :=
  match shots with
  | [] => Ok (s, [])
  | shot :: shots' =>
      bindO (decode_one num_obs packed_shots packed_preds s shot) (fun '(s', row, w) =>
      bindO (decode_batch num_obs packed_shots packed_preds s' shots') (fun '(s'', rows) =>
      Ok (s'', (row, w) :: rows)))
  end.
End Batch.
Arguments decode_one S {W}. Arguments decode_batch S {W}.

(** matching.py:202-216 _syndrome_array_to_detection_events, after the conversion to uint8.
    A 2D array is a list of rows, all of length [ncols] (z.shape = (number of rows, ncols)).
    z.T.nonzero() enumerates the columns (times) in order and, within a column, the rows (checks). *)
Inductive syndrome := Syn1 (z : list Z) | Syn2 (ncols : nat) (rows : list (list Z)) | SynOther.

Definition column (t : nat) (rows : list (list Z)) : list Z := map (fun row => nth t row 0) rows.

Definition syndrome_to_detection_events (num_detectors num_boundary : nat) (z : syndrome) : outcome (list nat) :=
  match z with
  | Syn1 l =>
      if (num_detectors <=? length l)%nat && (length l <=? num_detectors + num_boundary)%nat
      then Ok (nonzero_positions 0 l) else Throw
  | Syn2 ncols rows =>
      if (length rows * ncols =? num_detectors)%nat
      then Ok (flat_map (fun t => map (fun c => (t * length rows + c)%nat) (nonzero_positions 0 (column t rows))) (seq 0 ncols))
      else Throw
  | SynOther => Throw
  end.
