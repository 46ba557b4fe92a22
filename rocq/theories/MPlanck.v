(** Model of the two cosmologies that gwinferno/cosmology.py builds on import. *)
From Verif Require Export MCosmology.
Open Scope R_scope.

(** PLANCK_2015_OmegaLambda, PLANCK_2015_OmegaRadiation and the LVK ones (cosmology.py:16-17, 21-22) *)
Definition PLANCK_2015_OmegaLambda : R := 1 - PLANCK_2015_OmegaMatter.
Definition PLANCK_2015_OmegaRadiation : R := 0.
Definition PLANCK_2015_LVK_OmegaLambda : R := 1 - PLANCK_2015_LVK_OmegaMatter.
Definition PLANCK_2015_LVK_OmegaRadiation : R := PLANCK_2015_OmegaRadiation.
(** the default max_z=10.0 of the constructor (32) *)
Definition DEFAULT_MAX_Z : R := 10.
(** Cosmology(Ho, omega_matter, omega_radiation, omega_lambda) with the defaults of max_z and dz (32) *)
Definition default_cosmology (ho om orad ol : R) : result cosmo := make_cosmo (Fin ho) (Fin om) (Fin orad) (Fin ol) (Fin DEFAULT_MAX_Z) (Fin DEFAULT_DZ).
(** PLANCK_2015_Cosmology (143-148) *)
Definition PLANCK_2015_Cosmology : result cosmo :=
  default_cosmology PLANCK_2015_Ho PLANCK_2015_OmegaMatter PLANCK_2015_OmegaRadiation PLANCK_2015_OmegaLambda.
(** PLANCK_2015_LVK_Cosmology (150-155) *)
Definition PLANCK_2015_LVK_Cosmology : result cosmo :=
  default_cosmology PLANCK_2015_LVK_Ho PLANCK_2015_LVK_OmegaMatter PLANCK_2015_LVK_OmegaRadiation PLANCK_2015_LVK_OmegaLambda.
