(** Specification of the command line programs. *)
From Coq Require Import Reals ZArith NArith List Bool Arith.
From Verif Require Import M_UserGraph M_Merge S_Merge M_Dem S_Dem S_Pipeline S_DemDecode S_CorrDecode M_Cli.
Import ListNotations.

(** The model is one that can be decoded with, and the hits of a shot are distinct detectors that a few errors explain. *)
Definition sound_for (correlations : bool) (nd no : nat) (M : R) (dem : list (instruction RD)) : Prop :=
  if correlations then sound_correlated_model nd no M dem else sound_model nd no M dem.
Definition readable (correlations : bool) (dem : list (instruction RD)) (shot : list nat) : Prop :=
  NoDup shot /\
  if correlations then accountable dem (fun v => In v shot)
  else exists X, explains_events (mechanisms RD dem) (fun v => In v shot)  X /\ little (mechanisms RD dem) X.
(** What should be predicted for a shot: a most likely explanation (C55), or with correlations what the two decisions of C57 come to. *)
Definition right_line (correlations : bool) (no : nat) (M : R) (dem : list (instruction RD)) (shot : list nat) (line : list bool) : Prop :=
  exists w, if correlations then right_prediction dem no M true (fun v => In v shot) (map Z.b2z line) w
            else most_likely (mechanisms RD dem) no M (fun v => In v shot) (map Z.b2z line) w.

(** Recorded observables as a number. *)
Definition as_mask (obs : list bool) : Z := fold_right (fun b m => Z.b2z b + 2 * m)%Z 0%Z obs.
(** Where the recorded observables [obs] come from: they are appended to the shots, or read from a file of their own that has at least as many records. *)
Definition recorded (obs : list (list bool)) (obs_records : option (list Z)) (records : list shot) : Prop :=
  match obs_records with
  | None => map shot_obs_mask records = map as_mask obs
  | Some ms => exists more, ms = map as_mask obs ++ more /\ length obs = length records
  end.
Fixpoint differences (lines obs : list (list bool)) : Z :=
  match lines, obs with
  | l :: lines', o :: obs' => (if list_eq_dec bool_dec l o then 0 else 1) + differences lines' obs'
  | _, _ => 0
  end%Z.
(** The number of records that have one of their first 64 observables set. *)
Definition flagged (obs : list (list bool)) : Z := Z.of_nat (length (filter (fun o => existsb (fun b => b) (firstn 64 o)) obs)).
