(** Property theorem C109: the curves and bands drawn by the plotting functions. *)
From Coq Require Import Lra Lia Permutation.
From Verif Require Import PPlot NumFacts.
From Verif Require Import SpecPlot.
From Coq Require Import List.
Import ListNotations.
Open Scope R_scope.
Open Scope string_scope.
Open Scope list_scope.

(** each figure has, per population and in order, its median curve and 5-95 percent band with its name and color, and is saved iff asked *)
Theorem C109_mass_figures : forall mp qp m1 q names label dir save colors, Forall (good_draws (length m1)) mp -> Forall (good_draws (length q)) qp -> length qp = length mp ->
  (length mp <= length names)%nat -> (length mp <= length colors)%nat -> m1 <> [] ->
  exists dm dq, plot_mass_pdfs (map fins mp) (map fins qp) m1 q names label dir save colors =
    (dm ++ saved save (dir ++ "/mass_pdf_" ++ label ++ ".png") ++ dq ++ saved save (dir ++ "/mass_ratio_pdf_" ++ label ++ ".png"), Ok tt) /\
    draws_all true m1 mp names colors dm /\ draws_all false q qp names colors dq.
Proof. exact mass_figures. Qed.
Print Assumptions C109_mass_figures.
Theorem C109_spin_figures : forall ap tp aa cc names label dir save colors (secondary : bool), Forall (good_draws (length aa)) ap -> Forall (good_draws (length cc)) tp ->
  (length ap <= length names)%nat -> (length ap <= length colors)%nat -> (length tp <= length names)%nat -> (length tp <= length colors)%nat ->
  exists da dt, plot_spin_pdfs (map fins ap) (map fins tp) aa cc names label dir save colors secondary =
    (da ++ saved save (dir ++ "/spin_mag" ++ (if secondary then "2" else "1") ++ "_pdf_" ++ label ++ ".png") ++
     dt ++ saved save (dir ++ "/cos_tilt" ++ (if secondary then "2" else "1") ++ "_pdf_" ++ label ++ ".png"), Ok tt) /\
    draws_all false aa ap names colors da /\ draws_all false cc tp names colors dt.
Proof. exact spin_figures. Qed.
Print Assumptions C109_spin_figures.
Theorem C109_rate_figure : forall zp z label dir save, good_draws (length z) zp -> z <> [] ->
  exists d, plot_rate_of_z_pdfs (fins zp) z label dir save = (d ++ saved save (dir ++ "/redshift_pdf_" ++ label ++ ".png"), Ok tt) /\ draws_curve true "redshift" "blue" z zp d.
Proof. exact rate_figure. Qed.
Print Assumptions C109_rate_figure.
(** the median lies in the band, the band within the range of the draws; about one draw in twenty lies below it and one in twenty above it *)
Theorem C109_band : forall loglog label color x pdf ds, good_draws (length x) pdf -> draws_curve loglog label color x pdf ds ->
  exists med low high, ds = [Curve loglog label color x (map Fin med); Band color x (map Fin low) (map Fin high)] /\
  forall j, (j < length x)%nat -> nth j low 0 <= nth j med 0 <= nth j high 0 /\
    (forall lo hi, Forall (fun row => lo <= nth j row 0 <= hi) pdf -> lo <= nth j low 0 /\ nth j high 0 <= hi) /\
    (100 * below (nth j low 0%R) (draws_at pdf j) < 5 * (length pdf - 1) + 100)%nat /\
    (95 * (length pdf - 1) < 100 * upto (nth j high 0%R) (draws_at pdf j))%nat.
Proof. exact curve_ordered. Qed.
Print Assumptions C109_band.
(** neither chains nor draws need be in any order *)
Theorem C109_order_of_draws : forall loglog label color x pdf pdf', good_draws (length x) pdf -> Permutation pdf pdf' ->
  plot_pdf x (fins pdf) label color loglog = plot_pdf x (fins pdf') label color loglog.
Proof. exact curve_order_free. Qed.
Print Assumptions C109_order_of_draws.
(** every population drawn: false for more populations than the three default colors (or names), and for other numbers of mass-ratio densities *)
Theorem C109_too_many_refuted : forall mp qp m1 q names label dir save colors, Forall (good_draws (length m1)) mp -> (length names < length mp \/ length colors < length mp)%nat ->
  snd (plot_mass_pdfs (map fins mp) qp m1 q names label dir save colors) = Err IndexError.
Proof. exact mass_too_many. Qed.
Print Assumptions C109_too_many_refuted.
Theorem C109_mass_ratio_missing_refuted : forall mp qp m1 q names label dir save colors, Forall (good_draws (length m1)) mp -> Forall (good_draws (length q)) qp -> (length qp < length mp)%nat ->
  (length mp <= length names)%nat -> (length mp <= length colors)%nat -> m1 <> [] ->
  snd (plot_mass_pdfs (map fins mp) (map fins qp) m1 q names label dir save colors) = Err IndexError.
Proof. exact mass_ratio_missing. Qed.
Print Assumptions C109_mass_ratio_missing_refuted.
Theorem C109_mass_ratio_extra_refuted : forall mp qp m1 q names label dir save colors,
  plot_mass_pdfs mp qp m1 q names label dir save colors = plot_mass_pdfs mp (firstn (length mp) qp) m1 q names label dir save colors.
Proof. exact mass_ratio_extra. Qed.
Print Assumptions C109_mass_ratio_extra_refuted.

(** two populations of three and two draws on a grid of two points; four populations with the default colors *)
Definition draws3 : list (list R) := [[3; 1]; [1; 5]; [2; 4]].
Definition draws2 : list (list R) := [[1; 1]; [0; 2]].
Example C109_case : good_draws 2 draws3 /\ good_draws 2 draws2 /\ Permutation draws3 [[2; 4]; [3; 1]; [1; 5]] /\ (length COLORS < length [draws2; draws2; draws2; draws2])%nat /\
  is_percentile 50 (draws_at draws3 0) 2 /\ is_percentile 5 (draws_at draws3 0) (1 + 1/10).
Proof.
  split; [split; [discriminate|repeat constructor]|]. split; [split; [discriminate|repeat constructor]|].
  split; [change (Permutation ([[3;1];[1;5]] ++ [[2;4]]) ([[2;4]] ++ [[3;1];[1;5]])); apply Permutation_app_comm|]. split; [cbn; lia|].
  assert (A : forall i v, (i, v) = (0%nat, 1) \/ (i, v) = (1%nat, 2) \/ (i, v) = (2%nat, 3) -> is_ranked (draws_at draws3 0) i v).
  { intros i v [[= -> ->]|[[= -> ->]|[= -> ->]]]; (split; [cbn; tauto|]); unfold below, upto, draws_at, draws3; cbn;
    repeat (first [rewrite Rltb_t by lra|rewrite Rltb_f by lra|rewrite Rleb_t by lra|rewrite Rleb_f by lra]); cbn; lia. }
  split.
  - exists 2, 3. split; [apply A; auto|split; [apply A; auto|]]. cbn. lra.
  - exists 1, 2. split; [apply A; auto|split; [apply A; auto|]]. cbn. lra.
Qed.
