(** Model of the command line entry points (driver/namespaced_main.cc). Files, argument parsing and the
    stim readers and writers are not modelled: a reader is the list of records it yields, a writer is the
    list of records written. *)
From Coq Require Import ZArith List Bool.
From Verif Require Import M_Base.
Import ListNotations.
Open Scope Z_scope.

(** stim::SparseShot: indices of the fired detectors and the appended observables as a mask. *)
Record shot := { hits : list nat; shot_obs_mask : Z }.

Section Cli.
(** The state of the decoder, and the type of weights, which are not used here. *)
Variable S : Type.
Context {W : Type}.

(** namespaced_main.cc:73-75: writer->write_bit(res.obs_crossed[k]) for k < num_obs; reading past the
    end of the vector is undefined behaviour. write_bit takes a bool. *)
Fixpoint write_bits (obs_crossed : list Z) (num_obs : nat) : outcome (list bool) :=
  match num_obs with
  | O => Ok []
  | Datatypes.S n => match obs_crossed with
           | [] => UB
           | b :: r => bindO (write_bits r n) (fun w => Ok (negb (b =? 0) :: w))
           end
  end.

(** ExtendedMatchingResult::reset (mwpm_decoding.h): all bytes set to 0, weight set to 0. *)
Definition reset_obs (obs_crossed : list Z) : list Z := map (fun _ => 0) obs_crossed.

(** namespaced_main.cc:71-79, the loop of main_predict. [dec] is decode_detection_events. *)
Fixpoint predict_loop (dec : S -> list nat -> list Z -> outcome (S * list Z * W))
    (num_obs : nat) (s : S) (obs_crossed : list Z) (records : list shot) : outcome (S * list (list bool)) :=
  match records with
  | [] => Ok (s, [])
  | r :: records' =>
      bindO (dec s (hits r) obs_crossed) (fun '(s', obs, _) =>
      bindO (write_bits obs num_obs) (fun w =>
      bindO (predict_loop dec num_obs s' (reset_obs obs) records') (fun '(s'', ws) => Ok (s'', w :: ws))))
  end.

(** namespaced_main.cc:70: res is created with graph.num_observables zero bytes. *)
Definition main_predict dec (num_obs graph_num_obs : nat) s records :=
  predict_loop dec num_obs s (repeat 0 graph_num_obs) records.

(** namespaced_main.cc:144-160, the loop of main_count_mistakes; [obs_records] is None when the
    observables are appended to the shots, otherwise the masks yielded by obs_reader. [dec64] is
    decode_detection_events_for_up_to_64_observables (mask, weight); obs_mask_as_u64 keeps the low 64 bits. *)
Fixpoint count_loop (dec64 : S -> list nat -> outcome (S * (Z * W)))
    (s : S) (obs_records : option (list Z)) (num_mistakes num_shots : Z) (records : list shot) : outcome (S * (Z * Z)) :=
  match records with
  | [] => Ok (s, (num_mistakes, num_shots))
  | r :: records' =>
      bindO (match obs_records with
             | None => Ok (shot_obs_mask r, None)
             | Some [] => Throw
             | Some (m :: ms) => Ok (m, Some ms)
             end) (fun '(obs, obs_records') =>
      bindO (dec64 s (hits r)) (fun '(s', (mask, _)) =>
      count_loop dec64 s' obs_records'
        (if obs mod 2 ^ 64 =? mask then num_mistakes else num_mistakes + 1) (num_shots + 1) records'))
  end.

Definition main_count_mistakes dec64 s obs_records records := count_loop dec64 s obs_records 0 0 records.
End Cli.
