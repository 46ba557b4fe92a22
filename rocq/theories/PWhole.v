(** From posterior files and an injection file to the log-likelihood. *)
From Coq Require Import Lra Lia.
From Verif Require Import PStore PCollectChi PFit PPeak NumFacts.
From Verif Require Import SpecWhole SpecCosmology SpecCollect SpecSelection Spec.
Open Scope R_scope.
Open Scope string_scope.
Open Scope list_scope.

Lemma assoc_arrays size pe k rows : assoc k pe = Ok rows -> assoc k (arrays size pe) = Ok (Arr2 size rows).
Proof. unfold arrays. induction pe as [|[k' v] pe IH]; cbn; [discriminate|]. destruct (String.eqb k k'); [intros [= ->]; reflexivity|auto]. Qed.
Lemma choose_rows {A B} (Q : nat -> A -> B -> Prop) l : (forall k x, nth_error l k = Some x -> exists y, Q k x y) ->
  exists ys, length ys = length l /\ forall k x, nth_error l k = Some x -> exists y, nth_error ys k = Some y /\ Q k x y.
Proof.
  revert Q. induction l as [|x l IH]; intros Q H; [exists []; split; auto; intros [|k] y; discriminate|].
  destruct (H O x eq_refl) as [y Hy]. destruct (IH (fun k => Q (S k))) as (ys & L & F); [intros k z Hz; apply (H (S k)); auto|].
  exists (y :: ys). split; [cbn; auto|]. intros [|k] z Hz; [injection Hz as <-; exists y; auto|]. apply (F k z Hz).
Qed.
Lemma nth_error_eq {A} (l l' : list A) : length l = length l' -> (forall k, (k < length l)%nat -> nth_error l k = nth_error l' k) -> l = l'.
Proof.
  revert l'. induction l as [|x l IH]; intros [|y l'] L H; cbn in L; try discriminate; auto. pose proof (H O ltac:(cbn; lia)) as H0. cbn in H0. injection H0 as <-. f_equal.
  apply IH; [lia|]. intros k Hk. apply (H (S k)). cbn. lia.
Qed.

Lemma nth_forall2 {A B} (Q : A -> B -> Prop) l l' : length l' = length l -> (forall k x, nth_error l k = Some x -> exists y, nth_error l' k = Some y /\ Q x y) -> Forall2 Q l l'.
Proof.
  revert l'. induction l as [|x l IH]; intros [|y l'] L H; cbn in L; try discriminate; constructor; [destruct (H O x eq_refl) as (z & E & Hz); injection E as <-; exact Hz|].
  apply IH; [lia|]. intros k z Hz. apply (H (S k) z Hz).
Qed.

(** the samples of an event as binaries *)
Lemma column_cases p f : In (p, f) columns -> (In p parameters /\ p <> "prior") \/ (p = "prior" /\ f = b_prior).
Proof. cbn [columns In]. intros H. decompose [or] H; try contradiction; match goal with E : _ = _ |- _ => injection E as <- <- end; try (left; split; [cbn; tauto|discriminate]). right. auto. Qed.
Section Build.
Variable value : string -> nat -> num.
Lemma build_one j v : (forall p, In p parameters -> exists x, value p j = Fin x) ->
  exists b, (forall p f, In (p, f) columns -> p <> "prior" -> value p j = Fin (f b)) /\ b_prior b = v.
Proof.
  intros H. destruct (H "mass_1") as [m1 E1]; [cbn; tauto|]. destruct (H "mass_ratio") as [q E2]; [cbn; tauto|]. destruct (H "a_1") as [a1 E3]; [cbn; tauto|]. destruct (H "a_2") as [a2 E4]; [cbn; tauto|].
  destruct (H "cos_tilt_1") as [x1 E5]; [cbn; tauto|]. destruct (H "cos_tilt_2") as [x2 E6]; [cbn; tauto|]. destruct (H "redshift") as [z E7]; [cbn; tauto|].
  exists (SpecFit.Binary m1 q a1 a2 x1 x2 z v). split; [|reflexivity]. cbn [columns In]. intros p f Hp Hn. decompose [or] Hp; try contradiction; match goal with E : _ = (p, f) |- _ => injection E as <- <- end; auto. congruence.
Qed.
Lemma column_values (Q : nat -> binary -> Prop) js bs p f : (forall j b, Q j b -> forall p f, In (p, f) columns -> p <> "prior" -> value p j = Fin (f b)) -> Forall2 Q js bs ->
  In (p, f) columns -> p <> "prior" -> map (value p) js = map (fun b => Fin (f b)) bs.
Proof. intros HQ F Hp Hn. induction F as [|j b js bs H F IH]; cbn [map]; [reflexivity|]. rewrite (HQ j b H p f Hp Hn), IH. reflexivity. Qed.
End Build.

Section Whole.
Variables ho om orad ol zm : R.
Variable c : cosmo.
Hypothesis HF : flat ho om orad ol.
Hypothesis Hzm : 0 < zm.
Hypothesis HC : make_cosmo (Fin ho) (Fin om) (Fin orad) (Fin ol) (Fin zm) (Fin DEFAULT_DZ) = Ok c.
Variable names : list string.
Hypothesis HN : forall p, In p names <-> In p parameters.

Lemma names_requested p : In p parameters -> asked p names = true.
Proof. intros H. apply existsb_exists. exists p. split; [apply HN; auto|apply String.eqb_refl]. Qed.
Lemma sample_prior_value pz z m1 : sample_prior names pz z m1 = pz z * (1 + z) ^ 2 * m1 * (1 / 4).
Proof. unfold sample_prior. rewrite !names_requested by (cbn; tauto). reflexivity. Qed.

Lemma event_binaries mmax pzs size pe k ke : usable c mmax (snd ke) -> event_data_is c names mmax pzs size pe k (snd ke) ->
  exists bs, length bs = size /\ event_is c mmax pzs size ke bs /\ forall p f, In (p, f) columns -> exists rows, assoc p pe = Ok rows /\ nth_error rows k = Some (map (fun b => Fin (f b)) bs).
Proof.
  intros U (n & zj & js & G & Z & L & ND & S & RW & rows & vs & RP & RK & F). set (e := snd ke) in *.
  destruct (real_values ho om orad ol zm c HF Hzm HC [] mmax e n zj U G Z) as [_ RV].
  assert (B : exists bs, Forall2 (sample_is (pzs (ep_z_prior e)) e zj) js bs /\ map b_prior bs = vs).
  { clear U G Z ND RW RP RK L. induction F as [|j v js vs (z & m1 & E1 & E2 & E3) F IH]; [exists []; split; constructor|].
    destruct IH as (bs & F1 & F2); [intros; apply S; right; auto|]. destruct (build_one (sample_value e zj) j v) as (b & B1 & B2).
    { intros p Hp. apply RV; [|apply S; left; auto]. cbn [parameters In] in Hp. cbn [parameter_order PARAMS In]. tauto. }
    exists (b :: bs). split; [|cbn; rewrite F2, B2; reflexivity]. constructor; auto. split; auto. rewrite B2, E3, sample_prior_value.
    pose proof (B1 "redshift" b_z ltac:(cbn; tauto) ltac:(discriminate)) as Q1. pose proof (B1 "mass_1" b_m1 ltac:(cbn; tauto) ltac:(discriminate)) as Q2.
    rewrite E1 in Q1. rewrite E2 in Q2. injection Q1 as <-. injection Q2 as <-. reflexivity. }
  destruct B as (bs & B1 & B2). exists bs. split; [rewrite <- L; symmetry; eapply Forall2_len; exact B1|]. split; [exists n, zj, js; auto 8|].
  intros p f Hp. destruct (column_cases p f Hp) as [[H1 H2]|[-> ->]].
  - destruct (RW p) as (rw & E1 & E2); [apply HN; auto|]. exists rw. split; auto. rewrite E2. f_equal. eapply column_values; [|eassumption|auto|auto]; intros ? ? [X _]; exact X.
  - exists rows. split; auto. rewrite RK, <- B2, map_map. reflexivity.
Qed.
Lemma injection_binaries n t dens P sel inj : selects n P sel -> real_injections n t dens P -> plain_columns t names (requested_prior t names dens) sel inj ->
  exists found, Forall2 (injection_is t dens) sel found /\ forall p f, In (p, f) columns -> assoc p inj = Ok (map (fun b => Fin (f b)) found).
Proof.
  intros HS HR (_ & _ & PC & PP).
  assert (S : forall j, In j sel -> (j < n)%nat /\ P j) by (intros j Hj; apply HS; auto).
  assert (B : exists bs, Forall2 (injection_is t dens) sel bs /\ map (fun b => Fin (b_prior b)) bs = map (requested_prior t names dens) sel).
  { clear HS PC PP. induction sel as [|j sel IH]; [exists []; split; constructor|]. destruct IH as (bs & F1 & F2); [intros; apply S; right; auto|].
    destruct (S j (or_introl eq_refl)) as [Hj HP]. destruct (HR j Hj HP) as [RV [d Hd]].
    destruct (RV "a_1") as [a1 A1]; [cbn; tauto|]. destruct (RV "a_2") as [a2 A2]; [cbn; tauto|]. destruct (RV "mass_1") as [m1 M1]; [cbn; tauto|].
    assert (EP : requested_prior t names dens j = Fin (d * (sphere a1 / 2) * (sphere a2 / 2) * m1)).
    { unfold requested_prior, asks_spins. rewrite !names_requested by (cbn; tauto). cbn [orb times]. change (injection_value t "a_1" j) with (mag t "1" j) in A1. change (injection_value t "a_2" j) with (mag t "2" j) in A2.
      change (injection_value t "mass_1" j) with (cell t "mass1_source" j) in M1. rewrite A1, A2, M1, Hd, jac_sphere, !nmul_fin. f_equal. field. }
    destruct (build_one (injection_value t) j (d * (sphere a1 / 2) * (sphere a2 / 2) * m1) RV) as (b & B1 & B2). exists (b :: bs). split; [|cbn [map]; rewrite F2, B2, EP; reflexivity].
    constructor; auto. split; auto. exists d. split; auto. pose proof (B1 "a_1" b_a1 ltac:(cbn; tauto) ltac:(discriminate)) as Q1. pose proof (B1 "a_2" b_a2 ltac:(cbn; tauto) ltac:(discriminate)) as Q2.
    pose proof (B1 "mass_1" b_m1 ltac:(cbn; tauto) ltac:(discriminate)) as Q3. rewrite A1 in Q1. rewrite A2 in Q2. rewrite M1 in Q3. injection Q1 as <-. injection Q2 as <-. injection Q3 as <-. exact B2. }
  destruct B as (bs & B1 & B2). exists bs. split; auto. intros p f Hp. destruct (column_cases p f Hp) as [[H1 H2]|[-> ->]].
  - rewrite (PC p) by (apply HN; auto). f_equal. eapply column_values; [|eassumption|auto|auto]; intros ? ? [X _]; exact X.
  - rewrite PP, <- B2. reflexivity.
Qed.
Lemma names_available : incl names (available names).
Proof. intros p Hp. apply HN in Hp. unfold available. rewrite names_requested by (cbn; tauto). cbn [parameters In app] in *. tauto. Qed.
Lemma names_no_chi : ~ In "chi_eff" names.
Proof. intros H. apply HN in H. cbn in H. intuition discriminate. Qed.

Variable qs : list query.
Let c1 := history c qs (Fin DEFAULT_DZ).
Theorem catalog_tables h5 read choice w mmax meta kf cat fs filename file o4a cuts ifar snr n t dens N P :
  Forall2 (stored h5) meta cat -> cat <> [] -> Forall (fun ke : string * event_post => usable c mmax (snd ke)) cat -> is_sampling choice ->
  reads names ifar snr file o4a cuts n t dens (Fin N) P -> real_injections n t dens P -> h5_name filename ->
  exists a c2 i fs' pe inj time ps size pze pzc events found sel zs,
    load_posterior_dataset h5 read choice w c1 mmax (Some meta) kf names = Ok (a, c2) /\
    load_injection_dataset w (read_injections file names o4a true ifar snr cuts) names = Ok i /\
    save_posterior_samples_and_injection_datasets_as_idata fs filename a i = Ok fs' /\
    load_file fs' filename None = Ok (pe, inj, Constants (Fin N) time (length events), ps) /\
    (1 <= size <= 10000)%nat /\ euclidean_prior ho om orad c1 zs pze /\ comoving_prior ho om orad zs pzc /\
    Forall2 (event_is c mmax (fun zp => if String.eqb zp "euclidean" then pze else pzc) size) cat events /\
    selects n P sel /\ Forall2 (injection_is t dens) sel found /\ tables_hold (arrays size pe) inj size events found.
Proof.
  intros HM Hne HU HS HR HI Hh.
  destruct (whole_chain ho om orad ol zm c HF Hzm HC qs h5 read choice w mmax meta kf cat names fs filename file o4a cuts ifar snr n t dens (Fin N) P HM Hne HU HS HR names_no_chi names_available Hh)
    as (a & c2 & i & fs' & pe & inj & ps & time & E1 & E2 & E3 & E4 & K1 & K2 & K3 & (sel & Hsel & HPC) & size & zs & pze & pzc & Hsz & Hinc & Hz0 & PE & PC & EV).
  destruct (injection_binaries n t dens P sel inj Hsel HI HPC) as (found & FI & FC).
  destruct (choose_rows (fun k ke bs => length bs = size /\ event_is c mmax (fun zp => if String.eqb zp "euclidean" then pze else pzc) size ke bs /\
     forall p f, In (p, f) columns -> exists rows, assoc p pe = Ok rows /\ nth_error rows k = Some (map (fun b => Fin (f b)) bs)) cat) as (events & LE & HE).
  { intros k [ev e] Hk. apply event_binaries; [rewrite Forall_forall in HU; apply HU; eapply nth_error_In; eauto|]. apply (EV k ev e Hk). }
  exists a, c2, i, fs', pe, inj, time, ps, size, pze, pzc, events, found, sel, zs. rewrite LE. do 7 (split; [assumption|]).
  split; [apply nth_forall2; [auto|]; intros k x Hx; destruct (HE k x Hx) as (b & Hb & _ & Q & _); eauto|]. split; [assumption|]. split; [assumption|].
  split.
  - rewrite Forall_forall. intros bs Hb. apply In_nth_error in Hb. destruct Hb as [k Hk].
    destruct (nth_error cat k) as [x|] eqn:Ex; [|apply nth_error_None in Ex; assert (k < length events)%nat by (apply nth_error_Some; congruence); lia].
    destruct (HE k x Ex) as (b & Hb & Q & _). congruence.
  - intros p f Hp. split; [|apply FC; auto]. destruct cat as [|x0 cat0] eqn:EC; [congruence|]. rewrite <- EC in *.
    destruct (HE O x0) as (b0 & _ & _ & _ & Q0); [rewrite EC; reflexivity|]. destruct (Q0 p f Hp) as (rows & Hr & _). rewrite (assoc_arrays size pe p rows Hr). do 2 f_equal.
    apply nth_error_eq; [rewrite map_length, LE; eapply K3; eauto|]. intros k Hk. rewrite nth_error_map.
    destruct (nth_error cat k) as [x|] eqn:Ex; [|apply nth_error_None in Ex; rewrite (K3 p rows Hr) in Hk; lia].
    destruct (HE k x Ex) as (b & Hb & _ & _ & Q). rewrite Hb. destruct (Q p f Hp) as (rows' & Hr' & Hn). cbn [option_map]. congruence.
Qed.
Theorem files_to_likelihood h5 read choice w mmax meta kf cat fs filename file o4a cuts ifar snr n t dens N P :
    Forall2 (stored h5) meta cat -> cat <> [] -> Forall (fun ke : string * event_post => usable c mmax (snd ke)) cat -> is_sampling choice ->
  reads names ifar snr file o4a cuts n t dens (Fin N) P -> real_injections n t dens P -> h5_name filename ->
  exists a c2 i fs' pe inj time ps size pze pzc events found sel zs,
    load_posterior_dataset h5 read choice w c1 mmax (Some meta) kf names = Ok (a, c2) /\
    load_injection_dataset w (read_injections file names o4a true ifar snr cuts) names = Ok i /\
    save_posterior_samples_and_injection_datasets_as_idata fs filename a i = Ok fs' /\
    load_file fs' filename None = Ok (pe, inj, Constants (Fin N) time (length events), ps) /\
    (1 <= size <= 10000)%nat /\ euclidean_prior ho om orad c1 zs pze /\ comoving_prior ho om orad zs pzc /\
    Forall2 (event_is c mmax (fun zp => if String.eqb zp "euclidean" then pze else pzc) size) cat events /\
    selects n P sel /\ Forall2 (injection_is t dens) sel found /\
    forall keywords dVcdz v args d mlo mhi, binds likelihood_parameters 5 keywords = true -> (forall z, -1 < z -> dVcdz (Fin z) = Fin (v z)) ->
      (forall draw lamb nm nq na nct nz, (1 <= nz)%nat ->
         let p := drawn_population mlo mhi v (z_low events found) (z_high events found) lamb draw nm nq na nct nz in
         fit_ok args size events found N p ->
         exists mass mag tilt zmodel, example_setup dVcdz (arrays size pe) inj (AInt (Z.of_nat nm)) (AInt (Z.of_nat nq)) (AInt (Z.of_nat na)) (AInt (Z.of_nat nct)) (AInt (Z.of_nat nz)) (Fin mlo) (Fin mhi) = Ok (mass, mag, tilt, zmodel) /\
           factors (fst (snd (bspline_example_with keywords (fun s i => Fin (draw s i)) (Fin lamb) args d (arrays size pe) inj mass mag tilt zmodel nm nq na nct nz))) =
           (Site Factor "log_likelihood" (Scal (Fin (log_likelihood args p events found N))) :: nil)) /\
      (forall betaln draw B1 B2,
         let k := drawn_peak mlo mhi v (z_low events found) (z_high events found) draw B1 B2 in
         betaln (Fin (k_mu1 k * k_v1 k)) (Fin ((1 - k_mu1 k) * k_v1 k)) = Fin (ln B1) -> betaln (Fin (k_mu2 k * k_v2 k)) (Fin ((1 - k_mu2 k) * k_v2 k)) = Fin (ln B2) ->
         peak_fit_ok args size events found N k ->
         exists zmodel, peak_setup dVcdz (arrays size pe) inj = Ok zmodel /\
           factors (fst (peak_example_with betaln dVcdz (fun s => Fin (draw s)) zmodel (Fin mlo) (Fin mhi) keywords args d (arrays size pe) inj)) =
           (Site Factor "log_likelihood" (Scal (Fin (log_likelihood_of args (peak_pdf_over_prior k) events found N))) :: nil)).
Proof.
  intros HM Hne HU HS HR HI Hh.
  destruct (catalog_tables h5 read choice w mmax meta kf cat fs filename file o4a cuts ifar snr n t dens N P HM Hne HU HS HR HI Hh)
    as (a & c2 & i & fs' & pe & inj & time & ps & size & pze & pzc & events & found & sel & zs & E1 & E2 & E3 & E4 & E5 & E6 & E7 & E8 & E9 & E10 & T).
  exists a, c2, i, fs', pe, inj, time, ps, size, pze, pzc, events, found, sel, zs. do 10 (split; [assumption|]). intros keywords dVcdz v args d mlo mhi HB HV. split.
  - intros draw lamb nm nq na nct nz Hz p Hf. exact (model_fit keywords draw lamb args d dVcdz v (arrays size pe) inj size events found nm nq na nct nz mlo mhi N HB T Hz HV Hf).
  - intros betaln draw B1 B2 k H1 H2 Hf. exact (peak_fit keywords betaln dVcdz v draw args d (arrays size pe) inj size events found mlo mhi N B1 B2 HB T HV H1 H2 Hf).
Qed.
End Whole.
