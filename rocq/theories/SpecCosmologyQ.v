(** Which queries lie inside a cosmology's initial table. *)
From Verif Require Export MCosmology.
Open Scope R_scope.
(** the largest tabulated redshift and luminosity distance of [c] *)
Definition table_end (c : cosmo) (z d : R) : Prop := last (cz c) NaN = Fin z /\ last (cDL c) NaN = Fin d.
(** a non-empty array of reals, all at most [b] *)
Definition reals_upto (b : R) (l : list num) : Prop := exists rs, l = map Fin rs /\ rs <> [] /\ forall r, In r rs -> r <= b.
Definition inside (c : cosmo) (q : query) : Prop := exists z d, table_end c z d /\
  match q with Qz2Dc zs | Qz2DL zs | QdVcdz zs | QlogdVcdz zs => reals_upto z zs | QDL2z ds => reals_upto d ds end.
