(** Vocabulary for the statement that leads from posterior files and an injection file to the log-likelihood. *)
From Verif Require Export SpecStore SpecPeak.
Open Scope R_scope.
Open Scope string_scope.
Open Scope list_scope.

(** the parameters of a binary: all columns but the prior *)
Definition parameters : list string := ["mass_1"; "mass_ratio"; "a_1"; "a_2"; "cos_tilt_1"; "cos_tilt_2"; "redshift"].
(** binary b is sample j of an event: its prior is that of detector-frame masses, expressed in m1 and q, of a redshift prior pz and of
    isotropic spins with uniform magnitudes *)
Definition sample_is (pz : R -> R) (e : event_post) (zj : nat -> num) (j : nat) (b : binary) : Prop :=
  (forall p f, In (p, f) columns -> p <> "prior" -> sample_value e zj p j = Fin (f b)) /\
  b_prior b = pz (b_z b) * (1 + b_z b) ^ 2 * b_m1 b * (1 / 4).
(** size different samples of an event among those that survive the cut *)
Definition event_is (c : cosmo) (mmax : num) (pzs : string -> R -> R) (size : nat) (ke : string * event_post) (bs : list binary) : Prop :=
  let e := snd ke in exists n zj js, good_event n e /\ redshifts_of c e n zj /\ length js = size /\ NoDup js /\
    (forall j, In j js -> (j < n)%nat /\ survives mmax e n j) /\ Forall2 (sample_is (pzs (ep_z_prior e)) e zj) js bs.
(** binary b is row j of the injection table: its prior is the density of the file, expressed in q instead of m2 and in magnitudes and
    cosines instead of Cartesian spins *)
Definition injection_is (t : dict (list num)) (dens : nat -> num) (j : nat) (b : binary) : Prop :=
  (forall p f, In (p, f) columns -> p <> "prior" -> injection_value t p j = Fin (f b)) /\
  exists d, dens j = Fin d /\ b_prior b = d * (sphere (b_a1 b) / 2) * (sphere (b_a2 b) / 2) * b_m1 b.
(** every found row has real values *)
Definition real_injections (n : nat) (t : dict (list num)) (dens : nat -> num) (P : nat -> Prop) : Prop :=
  forall j, (j < n)%nat -> P j -> (forall p, In p parameters -> exists x, injection_value t p j = Fin x) /\ exists d, dens j = Fin d.
(** the loaded arrays of one row per event *)
Definition arrays (size : nat) (pe : dict (list (list num))) : dict arr2 := map (fun kv => (fst kv, Arr2 size (snd kv))) pe.
