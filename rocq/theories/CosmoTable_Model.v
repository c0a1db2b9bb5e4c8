(** * The distance table of FlatLambdaCDM (model of src/caustics/cosmology/FlatLambdaCDM.py:64-153).
    Casting the tables to float32 is left out (exact reals). *)
From Coq Require Import Reals.
From Coquelicot Require Import Coquelicot.
From Verif Require Import Const_Model Cosmo_Model Interp1_Model.
Open Scope R_scope.

Definition table_size : nat := 500.
(** 10 ** linspace(-3, 1, 500)   (lines 66-68) *)
Definition x_grid (k : nat) : R := Rpower 10 (- 3 + (1 - - 3) * INR k / INR (table_size - 1)).
(** x * hyp2f1(1/3, 1/2, 4/3, -x^3)  (lines 69-73).  SciPy is not modelled; the Gauss function is
    entered through its integral form x 2F1(1/3,1/2;4/3;-x^3) = int_0^x dt / sqrt(1 + t^3). *)
Definition y_grid (k : nat) : R := RInt (fun t => / sqrt (1 + t ^ 3)) 0 (x_grid k).
(** lines 132-153 *)
Definition comoving_distance_helper (x : R) : R := interp1d table_size x_grid y_grid Extrapolate x.
(** lines 156-180 *)
Definition flat_comoving_distance (z h0 Om0 : R) : R :=
  comoving_distance_flat comoving_distance_helper z h0 Om0.
