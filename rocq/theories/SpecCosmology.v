(** Flat Friedmann cosmology (Hogg 1999), independent of the model. *)
From Coq Require Export Reals List.
From Coquelicot Require Export Coquelicot.
From Verif Require Export Spec.
Open Scope R_scope.

(** Density parameters of a flat universe with non-negative matter and radiation, and a positive Hubble constant. *)
Definition flat (ho om orad ol : R) : Prop := 0 < ho /\ 0 <= om /\ 0 <= orad /\ om + orad + ol = 1.
(** Hubble rate E(z) = H(z)/H0, with matter density om and radiation density orad *)
Definition hubble (om orad : R) (z : R) : R := sqrt ((1 - om - orad) + om * (1 + z) ^ 3 + orad * (1 + z) ^ 4).
(** speed of light in m/s *)
Definition light : R := 299792458.
(** dDc/dz = c / (H0 E(z)) *)
Definition comoving_rate (ho om orad z : R) : R := light / ho / hubble om orad z.
(** number of grid points 0, dz, 2 dz, ... below zmax *)
Definition grid_points (zmax dz : R) (n : nat) : Prop := (1 <= n)%nat /\ INR (n - 1) * dz < zmax <= INR n * dz.
