(** Which arguments the B-spline constructors accept. *)
From Verif Require Import PBSplines PSplinePert PSplinePert2 PBSplineMake PPostprocess5 SpecBuild.
From Verif Require Import Spec.
Open Scope R_scope.

Lemma build_1d basis range o n xx inj : own_range basis range o -> (built (make_m1d basis range o n xx inj) <-> enough o n).
Proof.
  intros (K & I & lo & hi & E & V). unfold built, make_m1d, enough. rewrite K, I, E.
  destruct (knots_spec (dflt basis (o_basis o)) n (dflt 3%nat (o_degree o) + 1) lo hi (dflt (default_normalize (dflt basis (o_basis o))) (o_normalize o)) ltac:(lia) V) as [[A B] _].
  split.
  - intros (m & H). destruct (make_spline _ _ _ _ _ _ _ _) as [sp|e] eqn:M; [|discriminate]. specialize (A (ex_intro _ sp eq_refl)). lia.
  - intros H. destruct (B ltac:(lia)) as (sp & ->). cbn [rbind]. eauto.
Qed.
Lemma bind_built {A B} (r : result A) (k : A -> result B) : built (rbind r k) <-> exists a, r = Ok a /\ built (k a).
Proof. unfold built. destruct r as [a|e]; cbn [rbind]. - split; [intros (m & H); eauto|intros (a' & H & m & E); injection H as <-; eauto]. - split; [intros (m & H); discriminate|intros (a & H & _); discriminate]. Qed.
Lemma bind_ok {A B} (r : result A) (k : A -> B) : built (rbind r (fun a => Ok (k a))) <-> built r.
Proof. rewrite bind_built. unfold built. split; [intros (a & -> & _); eauto|intros (a & ->); eauto]. Qed.
Lemma both_built {A B C} (r : result A) (s : result B) (k : A -> B -> C) : built (rbind r (fun a => rbind s (fun b => Ok (k a b)))) <-> built r /\ built s.
Proof.
  rewrite bind_built. split.
  - intros (a & -> & H). split; [exists a; auto|]. apply (bind_ok s (k a)); auto.
  - intros ((a & ->) & H). exists a. split; auto. apply (bind_ok s (k a)); auto.
Qed.
Lemma build_redshift dVcdz zmax o n z0 z i0 zi dV dVi : own_range KLogX (Fin (1 / 10 ^ 4), zmax) o -> (built (make_redshift dVcdz zmax o n z0 z i0 zi dV dVi) <-> enough o n).
Proof. intros H. unfold make_redshift. rewrite bind_ok. apply build_1d; auto. Qed.
Lemma nlinspace_len lo hi n : length (nlinspace lo hi n) = n.
Proof. unfold nlinspace. destruct n as [|[|n]]; auto; rewrite ?map_length, ?seq_length; auto; cbn [length]; rewrite ?map_length, ?seq_length; auto. Qed.
Lemma hand_few lo hi n k : (n < k)%nat -> exists e, hand_knots lo hi n k = Err e.
Proof.
  intros H. unfold hand_knots. destruct (Z.of_nat n - Z.of_nat k + 2 <? 0)%Z eqn:E; [eauto|]. apply Z.ltb_ge in E.
  destruct (nlinspace lo hi (n + 2 - k)) as [|a [|b l]] eqn:L; eauto. apply (f_equal (@length num)) in L. rewrite nlinspace_len in L. cbn in L. lia.
Qed.
Lemma build_plsp s nrm n m1pe m1inj mmin m2min mmax k : 0 < mmin -> 0 < mmax -> (built (make_plsp s nrm n m1pe m1inj (Fin mmin) m2min (Fin mmax) k) <-> k = 4%nat /\ (4 <= n)%nat).
Proof.
  intros H1 H2. split.
  - intros (d & E). destruct (le_lt_dec k n) as [L|L].
    + destruct (Nat.eq_dec k 4) as [->|N]; [auto|]. rewrite wrong_order in E by auto. discriminate.
    + unfold make_plsp in E. destruct (hand_few (nlog (Fin mmin)) (nlog (Fin mmax)) n k L) as (e & X). rewrite X in E. discriminate.
  - intros [-> H]. unfold built, make_plsp. rewrite !nlog_fin by auto. destruct (hand_knots_fin (ln mmin) (ln mmax) n 4 H) as (ts & is & -> & L). cbn [rbind fst snd].
    unfold make_spline. cbn [option_map make_knots rbind].
    assert (LN : length (if logx s then map nlog (map Fin ts) else map Fin ts) = (n + 4)%nat) by (destruct (logx s); rewrite !map_length; lia).
    rewrite LN, Nat.eqb_refl. cbn [negb rbind]. eauto.
Qed.
Lemma build_plz dVcdz s n p0 pe i0 inj : valid_range s (grid_lo p0 pe i0 inj) (grid_hi p0 pe i0 inj) ->
  (built (make_plz_model dVcdz s n (Fin p0) (map Fin pe) (Fin i0) (map Fin inj)) <-> (4 <= n)%nat).
Proof. intros V. unfold make_plz_model. rewrite init_fin. cbn [zm_min zm_max zm_zs]. rewrite bind_ok. apply knots_spec; auto; lia. Qed.
Lemma build_pairs o1 o2 n1 n2 x1 x2 i1 i2 : 
  (own_range KLogY (Fin 0, Fin 1) o1 -> own_range KLogY (Fin 0, Fin 1) o2 -> (built (independent_spin_magnitudes o1 o2 n1 n2 x1 x2 i1 i2) <-> enough o1 n1 /\ enough o2 n2)) /\
  (own_range KLogY (Fin (-1), Fin 1) o1 -> own_range KLogY (Fin (-1), Fin 1) o2 -> (built (independent_spin_tilts o1 o2 n1 n2 x1 x2 i1 i2) <-> enough o1 n1 /\ enough o2 n2)) /\
  (own_range KB (Fin (-1), Fin 1) o1 -> own_range KB (Fin 0, Fin 1) o2 -> (built (effective_spin_dims o1 o2 n1 n2 x1 x2 i1 i2) <-> enough o1 n1 /\ enough o2 n2)) /\
  (own_range KLogY (Fin 0, Fin 1) o1 -> (built (iid_spin_magnitudes o1 n1 x1 x2 i1 i2) <-> enough o1 n1)) /\
  (own_range KLogY (Fin (-1), Fin 1) o1 -> (built (iid_spin_tilts o1 n1 x1 x2 i1 i2) <-> enough o1 n1)) /\
  (forall mmax m1min m2min, own_range KLogXLogY (m1min, mmax) o1 -> own_range KLogY (ndiv m2min mmax, Fin 1) o2 ->
     (built (primary_ratio o1 o2 n1 n2 x1 i1 x2 i2 mmax m1min m2min) <-> enough o1 n1 /\ enough o2 n2)) /\
  (forall a1 b1 a2 b2, own_range KLogXLogY (a1, b1) o1 -> own_range KLogXLogY (a2, b2) o2 ->
     (built (independent_component_masses o1 o2 n1 n2 a1 b1 a2 b2 x1 x2 i1 i2) <-> enough o1 n1 /\ enough o2 n2)) /\
  (forall a b, own_range KLogXLogY (a, b) o1 -> (built (iid_component_masses o1 n1 a b x1 x2 i1 i2) <-> enough o1 n1)).
Proof.
  split; [|split; [|split; [|split; [|split; [|split; [|split]]]]]]; intros.
  - unfold independent_spin_magnitudes. rewrite both_built. unfold spin_magnitude. rewrite !build_1d by auto. reflexivity.
  - unfold independent_spin_tilts. rewrite both_built. unfold spin_tilt. rewrite !build_1d by auto. reflexivity.
  - unfold effective_spin_dims. rewrite both_built. unfold chi_effective, chi_precess. rewrite !build_1d by auto. reflexivity.
  - unfold iid_spin_magnitudes. rewrite both_built. unfold spin_magnitude. rewrite !build_1d by auto. tauto.
  - unfold iid_spin_tilts. rewrite both_built. unfold spin_tilt. rewrite !build_1d by auto. tauto.
  - unfold primary_ratio. rewrite both_built. unfold mass_model, ratio_model. rewrite !build_1d by auto. reflexivity.
  - unfold independent_component_masses. rewrite both_built. unfold mass_model. rewrite !build_1d by auto. reflexivity.
  - unfold iid_component_masses, independent_component_masses. rewrite both_built. unfold mass_model. rewrite !build_1d by auto. tauto.
Qed.
