From Verif Require Import Num NumFacts MPriors MCollect Spec SpecNewton SpecCollect SpecLoad PSelection2 PCollectChi PPriorsIso PPriorsPush2.
From Coq Require Import List String Reals Lra.
Import ListNotations.
Open Scope R_scope.

(** the effective-spin prior of a row with the code's own density of chi_eff *)
Lemma iso_prior n D Di pj q a1 a2 c1 c2 p : 0 < q <= 1 -> 0 < a1 -> 0 < a2 -> -1 <= c1 <= 1 -> -1 <= c2 <= 1 ->
  dilogarithm D -> (forall y, Di (Fin y) = Fin (D y)) -> forall chi, chi = (a1 * c1 + q * a2 * c2) / (1 + q) ->
  chi = 0 \/ (Rabs chi <> (1 - q) / (1 + q) /\ Rabs chi <> q / (1 + q) /\ Rabs chi <> 1 / (1 + q)) ->
  exists v, 0 <= v /\ newton_integral (fun s => iso_spin 1 s * iso_spin 1 (((1 + q) * chi - s) / q) * ((1 + q) / q)) (-1) 1 v /\
    new_prior (SpinPriors (iso_pchi (S n) Di) pj) false (SpinRow (Fin q) (Fin a1) (Fin a2) (Fin c1) (Fin c2) (Fin p))
      = Ok (Fin (p * v / (sphere a1 * sphere a2 / 4))).
Proof.
  intros Hq H1 H2 Hc1 Hc2 HD HDi chi Ec Hb.
  destruct (iso_pushforward_prop q 1 D Di chi n Hq ltac:(lra) HD HDi) as (v & Ev & Hv & I).
  { destruct Hb as [Hb|(B1 & B2 & B3)]; [left; exact Hb|right]. rewrite Rmult_1_l, Rmult_1_r. auto. }
  exists v. split; [exact Hv|]. split; [replace (-1) with (- (1)) by ring; exact I|].
  destruct (effective_spins q a1 a2 c1 c2 (Fin p) ltac:(lra) Hc1 Hc2) as [Er _]. rewrite <- Ec in Er.
  assert (X : pchi (SpinPriors (iso_pchi (S n) Di) pj) (row_chi (SpinRow (Fin q) (Fin a1) (Fin a2) (Fin c1) (Fin c2) (Fin p))) (sr_q (SpinRow (Fin q) (Fin a1) (Fin a2) (Fin c1) (Fin c2) (Fin p))) = Ok (Fin v)).
  { rewrite Er. exact Ev. }
  unfold new_prior. rewrite X. cbn [rbind]. f_equal.
  refine (proj1 (effective_posterior (SpinPriors (iso_pchi (S n) Di) pj) (SpinRow (Fin q) (Fin a1) (Fin a2) (Fin c1) (Fin c2) (Fin p)) _ p a1 a2 v _ eq_refl eq_refl eq_refl H1 H2 X)).
  exists (Fin v). split; [exact X|]. reflexivity.
Qed.
Lemma aligned_chi q x p : 0 < q -> row_chi (SpinRow (Fin q) (Fin x) (Fin x) (Fin 1) (Fin 1) p) = Fin x.
Proof. intros Hq. destruct (effective_spins q x x 1 1 p ltac:(lra) ltac:(lra) ltac:(lra)) as [E _]. rewrite E. f_equal. field. lra. Qed.
Lemma iso_prior_raises : exists q a1 a2, 0 < q <= 1 /\ 0 < a1 <= 1 /\ 0 < a2 <= 1 /\
  forall n Di pj p, new_prior (SpinPriors (iso_pchi n Di) pj) false (SpinRow (Fin q) (Fin a1) (Fin a2) (Fin 1) (Fin 1) p) = Err RecursionError.
Proof.
  exists (/ 999999), (999998 / 1000000), (999998 / 1000000). repeat split; try lra. intros n Di pj p. unfold new_prior. rewrite aligned_chi by lra.
  cbn [pchi sr_q]. unfold iso_pchi. rewrite (iso_diverges Di n (/ 999999) 1); try reflexivity; try lra.
  - unfold rb2, eps. field.
  - unfold rb1, eps. lra.
  - left. unfold rb1. rewrite Rabs_right by lra. field.
Qed.
Lemma iso_prior_nan q : / 2 < q < 1 -> exists x, 0 < x < 1 /\
  forall n Di pj p, new_prior (SpinPriors (iso_pchi (S n) Di) pj) false (SpinRow (Fin q) (Fin x) (Fin x) (Fin 1) (Fin 1) p) = Ok NaN.
Proof.
  intros Hq. assert (0 < / (1 + q)) by (apply Rinv_0_lt_compat; lra).
  destruct (iso_D_nan (fun x => x) 0 q 1 Hq ltac:(lra)) as (x & Ex & Hx & _). exists x. split; [exact Hx|].
  intros n Di pj p. unfold new_prior. rewrite aligned_chi by lra. cbn [pchi sr_q]. unfold iso_pchi.
  destruct (iso_D_nan Di n q 1 Hq ltac:(lra)) as (x' & Ex' & _ & E). replace x' with x in E by congruence. rewrite E. cbn [rbind]. f_equal. match goal with |- nmul ?a NaN = NaN => destruct a; reflexivity end.
Qed.
