(** Cosmology: C42 - C46, C91, C94, C116. *)
From Verif Require Import PCosmologyR PCosmologyV PCosmologyAcc PCosmologyAny.
From Verif Require Import Spec.
Open Scope R_scope.

(** C42 *)
Theorem C42_tables_increase : forall ho om orad ol zmax dz, flat ho om orad ol -> 0 < dz -> 0 < zmax ->
  exists c n Dc DL Vc, make_cosmo (Fin ho) (Fin om) (Fin orad) (Fin ol) (Fin zmax) (Fin dz) = Ok c /\ grid_points zmax dz n /\
    cz c = map Fin (map (fun i => INR i * dz) (seq 0 n)) /\ cDc c = map Fin Dc /\ cDL c = map Fin DL /\ cVc c = map Fin Vc /\
    length Dc = n /\ length DL = n /\ length Vc = n /\
    nth 0 Dc 0 = 0 /\ nth 0 DL 0 = 0 /\ nth 0 Vc 0 = 0 /\ increasing Dc /\ increasing DL /\ increasing Vc /\
    (forall i, (i < n)%nat -> nth i Dc 0 <= light / ho * (INR i * dz)).
Proof. exact tables_increase. Qed.
Print Assumptions C42_tables_increase.
Example C42_case : flat PLANCK_2015_Ho PLANCK_2015_OmegaMatter 0 (1 - PLANCK_2015_OmegaMatter) /\ 0 < DEFAULT_DZ.
Proof. unfold flat, PLANCK_2015_Ho, PLANCK_2015_OmegaMatter, DEFAULT_DZ. lra. Qed.

(** C43 *)
Theorem C43_table_error : forall ho om orad ol zmax dz c, flat ho om orad ol -> 0 < dz -> 0 < zmax ->
  make_cosmo (Fin ho) (Fin om) (Fin orad) (Fin ol) (Fin zmax) (Fin dz) = Ok c ->
  forall i, (i < length (cDc c))%nat -> exists d I, nth i (cDc c) NaN = Fin d /\ is_RInt (comoving_rate ho om orad) 0 (INR i * dz) I /\ Rabs (d - I) <= light / ho * dz / 2.
Proof. exact table_error. Qed.
Print Assumptions C43_table_error.
(** with a non-negative cosmological constant the error is of second order in the step, uniformly in the redshift *)
Theorem C43_second_order : forall ho om orad ol zmax dz c, flat ho om orad ol -> 0 <= ol -> 0 < dz -> 0 < zmax ->
  make_cosmo (Fin ho) (Fin om) (Fin orad) (Fin ol) (Fin zmax) (Fin dz) = Ok c ->
  forall i, (i < length (cDc c))%nat -> exists d I, nth i (cDc c) NaN = Fin d /\ is_RInt (comoving_rate ho om orad) 0 (INR i * dz) I /\ Rabs (d - I) <= 2 * (light / ho) * dz ^ 2 * (1 + dz).
Proof. exact table_second_order. Qed.
Print Assumptions C43_second_order.
Example C43_case : exists c, make_cosmo (Fin PLANCK_2015_Ho) (Fin PLANCK_2015_OmegaMatter) (Fin 0) (Fin (1 - PLANCK_2015_OmegaMatter)) (Fin 10) (Fin DEFAULT_DZ) = Ok c.
Proof. destruct (tables_increase PLANCK_2015_Ho PLANCK_2015_OmegaMatter 0 (1 - PLANCK_2015_OmegaMatter) 10 DEFAULT_DZ) as (c & n & Dc & DL & Vc & E & _); [apply C42_case|apply C42_case|lra|eauto]. Qed.

(** C44 *)
Theorem C44_round_trip : forall ho om orad ol zmax dz c, flat ho om orad ol -> 0 < dz -> 0 < zmax ->
  make_cosmo (Fin ho) (Fin om) (Fin orad) (Fin ol) (Fin zmax) (Fin dz) = Ok c ->
  forall step, exists zl dl, table_end c zl dl /\
  (forall zs, zs <> [] -> (forall z, In z zs -> 0 <= z <= zl) ->
    exists ds, z2DL c (map Fin zs) step = Ok (map Fin ds, c) /\ DL2z c (map Fin ds) step = Ok (map Fin zs, c)) /\
  (forall ds, ds <> [] -> (forall d, In d ds -> 0 <= d <= dl) ->
    exists zs, DL2z c (map Fin ds) step = Ok (map Fin zs, c) /\ z2DL c (map Fin zs) step = Ok (map Fin ds, c)).
Proof. exact round_trip. Qed.
Print Assumptions C44_round_trip.

(** C45 *)
Theorem C45_history_independent : forall ho om orad ol zmax dz c, flat ho om orad ol -> 0 < dz -> 0 < zmax ->
  make_cosmo (Fin ho) (Fin om) (Fin orad) (Fin ol) (Fin zmax) (Fin dz) = Ok c ->
  forall qs q, inside c q -> exists ans c', ask c q (Fin dz) = Ok (ans, c) /\ ask (history c qs (Fin dz)) q (Fin dz) = Ok (ans, c').
Proof. exact history_free. Qed.
Print Assumptions C45_history_independent.
Example C45_case : forall ho om orad ol zmax dz c, flat ho om orad ol -> 0 < dz -> 0 < zmax ->
  make_cosmo (Fin ho) (Fin om) (Fin orad) (Fin ol) (Fin zmax) (Fin dz) = Ok c -> inside c (Qz2Dc (map Fin [0; 0])).
Proof.
  intros ho om orad ol zmax dz c HF Hd Hz H. destruct (round_trip ho om orad ol zmax dz c HF Hd Hz H (Fin dz)) as (zl & dl & T & _). exists zl, dl. split; auto.
  exists [0; 0]. split; [reflexivity|]. split; [discriminate|]. destruct (made _ _ _ _ _ _ _ HF Hd Hz H) as (n & Hn & ->). apply table_end_tab in T; auto. destruct T as [-> _].
  pose proof (zi_mono dz Hd 0 (n - 1) ltac:(lia)) as Q. rewrite zi_0 in Q. intros r [<-|[<-|[]]]; auto.
Qed.

(** a query with no redshifts is refused and leaves the object as it was *)
Theorem C45_empty_query : forall c dz q, In q [Qz2Dc []; Qz2DL []; QdVcdz []; QlogdVcdz []; QDL2z []] -> ask c q dz = Err ValueError /\ after dz c q = c.
Proof. intros c dz q [<-|[<-|[<-|[<-|[<-|[]]]]]]; split; reflexivity. Qed.
Print Assumptions C45_empty_query.

(** C46: beyond the table the returned distance is that of the last grid point below z *)
Theorem C46_beyond_table_error_partial : forall ho om orad ol zmax dz c, flat ho om orad ol -> 0 < dz -> 0 < zmax ->
  make_cosmo (Fin ho) (Fin om) (Fin orad) (Fin ol) (Fin zmax) (Fin dz) = Ok c ->
  forall z, (forall w d, table_end c w d -> w < z) -> exists d c' I, z2Dc c (Fin z :: nil) (Fin dz) = Ok (Fin d :: nil, c') /\
  is_RInt (comoving_rate ho om orad) 0 z I /\ Rabs (d - I) <= 3 / 2 * (light / ho * dz).
Proof. exact beyond_bound. Qed.
Print Assumptions C46_beyond_table_error_partial.
(** after any queries, any array of redshifts, inside the table or beyond it *)
Theorem C46_every_query_partial : forall ho om orad ol zmax dz c, flat ho om orad ol -> 0 < dz -> 0 < zmax ->
  make_cosmo (Fin ho) (Fin om) (Fin orad) (Fin ol) (Fin zmax) (Fin dz) = Ok c ->
  forall qs zs, zs <> [] -> (forall z, In z zs -> 0 <= z) -> let c1 := history c qs (Fin dz) in
  exists Dc DL c', z2Dc c1 (map Fin zs) (Fin dz) = Ok (map Fin Dc, c') /\ z2DL c1 (map Fin zs) (Fin dz) = Ok (map Fin DL, c') /\ length Dc = length zs /\ length DL = length zs /\
  forall i, (i < length zs)%nat -> exists I, is_RInt (comoving_rate ho om orad) 0 (nth i zs 0) I /\
    Rabs (nth i Dc 0 - I) <= 3 / 2 * (light / ho * dz) /\ Rabs (nth i DL 0 - (1 + nth i zs 0) * I) <= light / ho * dz * (5 / 2 * (1 + nth i zs 0) + 3 / 2 * dz).
Proof. exact every_query. Qed.
Print Assumptions C46_every_query_partial.
Theorem C46_beyond_table_clamped_refuted : forall ho om orad ol zmax dz c, flat ho om orad ol -> 0 < dz -> 0 < zmax ->
  make_cosmo (Fin ho) (Fin om) (Fin orad) (Fin ol) (Fin zmax) (Fin dz) = Ok c ->
  forall z, (forall w d, table_end c w d -> w < z) -> exists d c' w, z2Dc c (Fin z :: nil) (Fin dz) = Ok (Fin d :: nil, c') /\
  w < z /\ z2Dc c' (Fin w :: nil) (Fin dz) = Ok (Fin d :: nil, c').
Proof. exact beyond_clamped. Qed.
Print Assumptions C46_beyond_table_clamped_refuted.
Theorem C46_answer_changes_refuted : forall ho om orad ol zmax dz c, flat ho om orad ol -> 0 < dz -> 0 < zmax ->
  make_cosmo (Fin ho) (Fin om) (Fin orad) (Fin ol) (Fin zmax) (Fin dz) = Ok c ->
  forall z, (forall w d, table_end c w d -> w < z) -> exists d d' c1 c2 c3, z2Dc c (Fin z :: nil) (Fin dz) = Ok (Fin d :: nil, c1) /\
  c2 = history c1 [Qz2Dc (Fin (z + dz) :: nil)] (Fin dz) /\ z2Dc c2 (Fin z :: nil) (Fin dz) = Ok (Fin d' :: nil, c3) /\ d < d'.
Proof. exact beyond_moves. Qed.
Print Assumptions C46_answer_changes_refuted.
Theorem C46_distance_beyond_table_refuted : forall ho om orad ol zmax dz c, flat ho om orad ol -> 0 < dz -> 0 < zmax ->
  make_cosmo (Fin ho) (Fin om) (Fin orad) (Fin ol) (Fin zmax) (Fin dz) = Ok c ->
  forall ds step, (forall w e, table_end c w e -> exists d, In d ds /\ e < d) -> DL2z c (map Fin ds) step = Err TypeError.
Proof. exact beyond_distance. Qed.
Print Assumptions C46_distance_beyond_table_refuted.
Example C46_case : forall ho om orad ol zmax dz c, flat ho om orad ol -> 0 < dz -> 0 < zmax ->
  make_cosmo (Fin ho) (Fin om) (Fin orad) (Fin ol) (Fin zmax) (Fin dz) = Ok c -> forall w d, table_end c w d -> w < zmax.
Proof.
  intros ho om orad ol zmax dz c HF Hd Hz H w d T. destruct (points_exist dz Hd zmax Hz) as [n Hn]. rewrite (make_table _ _ _ _ HF dz Hd zmax n Hn) in H. injection H as <-.
  apply table_end_tab in T; [|apply Hn]. destruct T as [-> _]. apply Hn.
Qed.

(** C91 *)
Theorem C91_log_volume : forall ho om orad ol zmax dz c, flat ho om orad ol -> 0 < dz -> 0 < zmax ->
  make_cosmo (Fin ho) (Fin om) (Fin orad) (Fin ol) (Fin zmax) (Fin dz) = Ok c ->
  forall qs zs, zs <> [] -> (forall z, In z zs -> 0 <= z) -> let c1 := history c qs (Fin dz) in
  exists vs c', dVcdz c1 (map Fin zs) (Fin dz) = Ok (map Fin vs, c') /\ logdVcdz c1 (map Fin zs) (Fin dz) = Ok (map nlog (map Fin vs), c') /\
  Forall2 (fun z v => 0 <= v /\ (dz < zmax -> 0 < z -> 0 < v)) zs vs.
Proof. exact log_volume_any. Qed.
Print Assumptions C91_log_volume.
Example C91_case : forall z, In z [0; 1; 20] -> 0 <= z. Proof. intros z [<-|[<-|[<-|[]]]]; lra. Qed.

(** C94 *)
Theorem C94_not_flat : forall ho om orad ol zmax dz, om + orad + ol <> 1 ->
  make_cosmo (Fin ho) (Fin om) (Fin orad) (Fin ol) zmax dz = Err AssertionError.
Proof. exact not_flat_raises. Qed.
Print Assumptions C94_not_flat.
Theorem C94_luminosity_table : forall ho om orad ol zmax dz c, flat ho om orad ol -> 0 < dz -> 0 < zmax ->
  make_cosmo (Fin ho) (Fin om) (Fin orad) (Fin ol) (Fin zmax) (Fin dz) = Ok c ->
  forall i, (i < length (cz c))%nat -> exists z d, nth i (cz c) NaN = Fin z /\ nth i (cDc c) NaN = Fin d /\ nth i (cDL c) NaN = Fin ((1 + z) * d).
Proof. exact made_DL_table. Qed.
Print Assumptions C94_luminosity_table.
Theorem C94_luminosity_query : forall ho om orad ol zmax dz c, flat ho om orad ol -> 0 < dz -> 0 < zmax ->
  make_cosmo (Fin ho) (Fin om) (Fin orad) (Fin ol) (Fin zmax) (Fin dz) = Ok c ->
  forall zs step zl dl, table_end c zl dl -> zs <> [] -> (forall z, In z zs -> 0 <= z <= zl) ->
  exists Ds Ls, z2Dc c (map Fin zs) step = Ok (map Fin Ds, c) /\ z2DL c (map Fin zs) step = Ok (map Fin Ls, c) /\
    length Ds = length zs /\ length Ls = length zs /\
    forall i, (i < length zs)%nat -> 0 <= nth i Ls 0 - (1 + nth i zs 0) * nth i Ds 0 <= light / ho * dz ^ 2 / 4.
Proof. exact made_DL. Qed.
Print Assumptions C94_luminosity_query.
Theorem C94_volume_element : forall ho om orad ol zmax dz c, flat ho om orad ol -> 0 < dz -> 0 < zmax ->
  make_cosmo (Fin ho) (Fin om) (Fin orad) (Fin ol) (Fin zmax) (Fin dz) = Ok c ->
  forall qs zs, zs <> [] -> (forall z, In z zs -> 0 <= z) -> let c1 := history c qs (Fin dz) in
  exists Ds c', z2Dc c1 (map Fin zs) (Fin dz) = Ok (map Fin Ds, c') /\ length Ds = length zs /\
    dVcdz c1 (map Fin zs) (Fin dz) = Ok (map Fin (map2 (fun z d => 4 * PI * d ^ 2 * comoving_rate ho om orad z) zs Ds), c').
Proof. exact element_any. Qed.
Print Assumptions C94_volume_element.
Theorem C94_volume_table : forall ho om orad ol zmax dz c, flat ho om orad ol -> 0 < dz -> 0 < zmax ->
  make_cosmo (Fin ho) (Fin om) (Fin orad) (Fin ol) (Fin zmax) (Fin dz) = Ok c ->
  forall i, (i < length (cz c))%nat -> exists d v, nth i (cDc c) NaN = Fin d /\ nth i (cVc c) NaN = Fin v /\
    Rabs (v - 4 / 3 * PI * d ^ 3) <= 8 / 3 * PI * (light / ho * dz) ^ 2 * d.
Proof. exact made_volume. Qed.
Print Assumptions C94_volume_table.
Example C94_case : 3 / 10 + 1 / 10 + 1 / 2 <> 1 /\ flat PLANCK_2015_LVK_Ho PLANCK_2015_LVK_OmegaMatter 0 (1 - PLANCK_2015_LVK_OmegaMatter).
Proof. unfold flat, PLANCK_2015_LVK_Ho, PLANCK_2015_LVK_OmegaMatter. lra. Qed.

(** C116 *)
Theorem C116_planck_distances : forall obj h om, obj = PLANCK_2015_LVK_Cosmology /\ h = 67.90 /\ om = 0.3065 \/ obj = PLANCK_2015_Cosmology /\ h = 67.74 /\ om = 0.3089 ->
  exists c, obj = Ok c /\ forall qs zs, zs <> [] -> (forall z, In z zs -> 0 <= z <= 9.999) -> let c1 := history c qs (Fin DEFAULT_DZ) in
   exists Dc DL, z2Dc c1 (map Fin zs) (Fin DEFAULT_DZ) = Ok (map Fin Dc, c1) /\ z2DL c1 (map Fin zs) (Fin DEFAULT_DZ) = Ok (map Fin DL, c1) /\
    dVcdz c1 (map Fin zs) (Fin DEFAULT_DZ) = Ok (map Fin (map2 (fun z d => 4 * PI * d ^ 2 * hubble_length h om z) zs Dc), c1) /\
    length Dc = length zs /\ length DL = length zs /\ forall i, (i < length zs)%nat -> exists d, comoving_distance h om (nth i zs 0) d /\
      Rabs (nth i Dc 0 - d) <= tolerance /\ Rabs (nth i DL 0 - (1 + nth i zs 0) * d) <= (1 + nth i zs 0) * tolerance.
Proof. exact planck_distances. Qed.
Print Assumptions C116_planck_distances.
Theorem C116_planck_redshifts : forall obj h om, obj = PLANCK_2015_LVK_Cosmology /\ h = 67.90 /\ om = 0.3065 \/ obj = PLANCK_2015_Cosmology /\ h = 67.74 /\ om = 0.3089 ->
  exists c far, obj = Ok c /\ table_end c 9.999 far /\ forall qs ds, ds <> [] -> (forall d, In d ds -> 0 <= d <= far) -> let c1 := history c qs (Fin DEFAULT_DZ) in
   exists zs, DL2z c1 (map Fin ds) (Fin DEFAULT_DZ) = Ok (map Fin zs, c1) /\ length zs = length ds /\
    forall i, (i < length ds)%nat -> 0 <= nth i zs 0 <= 9.999 /\ exists d, comoving_distance h om (nth i zs 0) d /\ Rabs (nth i ds 0 - (1 + nth i zs 0) * d) <= (1 + nth i zs 0) * tolerance.
Proof. exact planck_redshifts. Qed.
Print Assumptions C116_planck_redshifts.
Example C116_case : [1; 9] <> [] /\ (forall z, In z [1; 9] -> 0 <= z <= 9.999) /\ 0 <= 1 - 0.3065 /\ forall far, 0 <= far -> forall d, In d [0; far] -> 0 <= d <= far.
Proof. split; [discriminate|]. split; [intros z [<-|[<-|[]]]; lra|]. split; [lra|]. intros far F d [<-|[<-|[]]]; lra. Qed.
