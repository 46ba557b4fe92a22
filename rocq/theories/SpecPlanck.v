(** Distances in a flat universe of matter and a cosmological constant, in Mpc, independent of the model. *)
From Coq Require Export Reals.
From Coquelicot Require Export Coquelicot.
Open Scope R_scope.

(** c / H(t) in Mpc at redshift t, with a Hubble constant of h km/s/Mpc, the speed of light 299792.458 km/s, and a fraction om of matter *)
Definition hubble_length (h om t : R) : R := 299792.458 / (h * sqrt (om * (1 + t) ^ 3 + (1 - om))).
(** [comoving_distance h om z d]: d Mpc is the comoving distance at redshift z, the integral of c / H *)
Definition comoving_distance (h om z d : R) : Prop := is_RInt (hubble_length h om) 0 z d.
(** 12.5 kpc, in Mpc *)
Definition tolerance : R := 0.0125.
