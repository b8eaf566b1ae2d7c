(** Specification for the command line entry points. *)
From Coq Require Import ZArith List Bool.
From Verif Require Import M_Cli.
Import ListNotations.
Open Scope Z_scope.

(** Number of positions where recorded and decoded masks differ. *)
Fixpoint mismatches (recorded decoded : list Z) : Z :=
  match recorded, decoded with
  | a :: r, b :: d => (if a =? b then 0 else 1) + mismatches r d
  | _, _ => 0
  end.

(** The recorded masks: appended to the shots, or read from a separate file. *)
Definition recorded_masks (obs_records : option (list Z)) (records : list shot) : list Z :=
  match obs_records with None => map shot_obs_mask records | Some ms => ms end.
