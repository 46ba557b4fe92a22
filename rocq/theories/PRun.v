(** Proofs about bin/gwinferno_run_from_config.py. *)
From Coq Require Import Lra Lia.
From Verif Require Import NumFacts.
From Verif Require Import SpecRun.
From Coq Require Import List.
Import ListNotations.
Open Scope R_scope.
Open Scope string_scope.
Open Scope list_scope.

Lemma script_fails {C} (import : string -> string -> result C) lc li yml : run_script import lc li yml = Err ImportError.
Proof. reflexivity. Qed.

Lemma each_ok {A B} (f : A -> result B) (P : A -> B -> Prop) l : (forall a, In a l -> exists b, f a = Ok b /\ P a b) -> exists bs, each f l = Ok bs /\ Forall2 P l bs.
Proof.
  induction l as [|a l IH]; intros H; [exists []; split; [reflexivity|constructor]|].
  destruct (H a (or_introl eq_refl)) as (b & E & Pb). destruct IH as (bs & Es & Ps); [intros; apply H; now right|].
  exists (b :: bs). cbn [each]. rewrite E. cbn [rbind]. rewrite Es. split; [reflexivity|now constructor].
Qed.
Lemma each_err {A B} (f : A -> result B) l a e : In a l -> (forall x, In x l -> f x = Err e \/ exists y, f x = Ok y) -> f a = Err e -> each f l = Err e.
Proof.
  induction l as [|x l IH]; intros I H E; [destruct I|]. cbn [each]. destruct (H x (or_introl eq_refl)) as [E1|[y E1]]; rewrite E1; [reflexivity|]. cbn [rbind].
  destruct I as [->|I]; [congruence|]. rewrite IH; [reflexivity|assumption|intros; apply H; now right|assumption].
Qed.
Lemma keyed {V} (P : string -> V -> Prop) ps (l : dict V) : Forall2 (fun p kv => fst kv = p /\ P p (snd kv)) ps l -> keys l = ps /\ forall p, In p ps -> exists v, assoc p l = Ok v /\ P p v.
Proof.
  induction 1 as [|p [k v] ps l [E Pv] F [K A]]; [split; [reflexivity|intros p []]|]. cbn in E, Pv. subst k. split; [unfold keys in *; cbn; now rewrite K|].
  intros q Q. cbn [assoc]. destruct (String.eqb_spec q p) as [->|N]; [eauto|]. destruct Q as [->|Q]; [congruence|auto].
Qed.
Lemma del_other {A} k p (d : dict A) : p <> k -> assoc p (ddel k d) = assoc p d.
Proof. intros N. induction d as [|[k' v] d IH]; [reflexivity|]. cbn. destruct (String.eqb_spec k k') as [->|N']; cbn; [destruct (String.eqb_spec p k'); [congruence|reflexivity]|]. destruct (String.eqb p k'); auto. Qed.
Lemma existsb_eqb k l : existsb (String.eqb k) l = true <-> In k l.
Proof. rewrite existsb_exists. split; [intros (x & I & E); apply String.eqb_eq in E; now subst|intros I; exists k; split; [assumption|apply String.eqb_refl]]. Qed.
Lemma spin_flag params b : spin_model params b -> (existsb (String.eqb "a_1") (params ++ "prior" :: nil) || existsb (String.eqb "chi_eff") (params ++ "prior" :: nil))%bool = b.
Proof.
  intros S. apply Bool.eq_true_iff_eq. rewrite Bool.orb_true_iff, !existsb_eqb, !in_app_iff. unfold spin_model in S. rewrite S. cbn. intuition discriminate.
Qed.
Lemma fill_same n v : length v = n -> fill_row n v = Ok v.
Proof. intros <-. unfold fill_row. now rewrite Nat.eqb_refl. Qed.

Lemma setup_front lc li d info semi params spin cat (f : R) inj t0 t1 : spin_model params spin -> assoc "catalog_summary_json" d = Ok info -> assoc "seminanalytic_injs" d = Ok semi ->
  lc info spin = Ok cat -> ct_far cat = Fin f -> f <> 0 -> li (ct_injfile cat) (Fin (1 / f)) spin semi = Ok inj -> assoc "total_generated" inj = Ok t0 -> assoc "analysis_time" inj = Ok t1 ->
  setup lc li (YMap d) params =
    (do first <- match ct_names cat with [] => Err IndexError | n :: _ => Ok n end;
     do e <- assoc first (ct_pe cat);
     do m <- assoc "mass_1" e;
     do rows <- each (event_rows (ct_pe cat) (params ++ "prior" :: nil) (length m)) (ct_names cat);
     do pe <- each (fun p => do col <- each (assoc p) rows; Ok (p, col)) (params ++ "prior" :: nil);
     do ij <- each (fun p => do v <- assoc p (ddel "analysis_time" (ddel "total_generated" inj)); Ok (p, v)) (params ++ "prior" :: nil);
     Ok (Inputs pe ij t0 (length (ct_names cat)) t1)).
Proof.
  intros S A1 A2 L F NZ I T0 T1. unfold setup. cbn [yget]. rewrite A1. cbn [rbind]. rewrite (spin_flag _ _ S), L. cbn [rbind]. rewrite F. cbn [neqb]. rewrite Reqb_f by assumption. cbn [rbind].
  rewrite A2. cbn [rbind]. rewrite ndiv_fin by assumption. rewrite I. cbn [rbind]. rewrite T0. cbn [rbind]. rewrite del_other by discriminate. rewrite T1. reflexivity.
Qed.
Lemma row_ok c params n ev : In ev (ct_names c) -> rectangular c params n -> exists row, event_rows (ct_pe c) (params ++ "prior" :: nil) n ev = Ok row /\
  (forall p, In p (params ++ "prior" :: nil) -> exists v, assoc p row = Ok v /\ samples_are c ev p v).
Proof.
  intros I (_ & H). destruct (each_ok (fun p => do e <- assoc ev (ct_pe c); do v <- assoc p e; do r <- fill_row n v; Ok (p, r)) (fun p kv => fst kv = p /\ samples_are c ev p (snd kv)) (params ++ "prior" :: nil)) as (row & E & F).
  - intros p P. destruct (H ev p I) as (v & (e & E1 & E2) & Lv); [apply in_app_iff in P; cbn in P; intuition|]. rewrite E1. cbn [rbind]. rewrite E2. cbn [rbind]. rewrite fill_same by assumption. cbn [rbind].
    eexists. split; [reflexivity|]. split; [reflexivity|]. exists e. auto.
  - exists row. split; [exact E|]. apply keyed in F. apply F.
Qed.
Lemma setup_ok lc li d info semi params spin cat (f : R) inj t0 t1 n : spin_model params spin -> assoc "catalog_summary_json" d = Ok info -> assoc "seminanalytic_injs" d = Ok semi ->
  lc info spin = Ok cat -> ct_far cat = Fin f -> f <> 0 -> li (ct_injfile cat) (Fin (1 / f)) spin semi = Ok inj -> assoc "total_generated" inj = Ok t0 -> assoc "analysis_time" inj = Ok t1 ->
  rectangular cat params n -> has_injections params inj -> exists r, setup lc li (YMap d) params = Ok r /\ arrays_of cat inj params r.
Proof.
  intros S A1 A2 L F NZ I T0 T1 RC HI. rewrite (setup_front lc li d info semi params spin cat f inj t0 t1); try assumption.
  destruct (each_ok (event_rows (ct_pe cat) (params ++ "prior" :: nil) n) (fun ev row => forall p, In p (params ++ "prior" :: nil) -> exists v, assoc p row = Ok v /\ samples_are cat ev p v) (ct_names cat)) as (rows & Er & Fr); [intros ev Iev; now apply (row_ok cat params n ev)|].
  assert (exists first e m, match ct_names cat with [] => Err IndexError | n0 :: _ => Ok n0 end = Ok first /\ assoc first (ct_pe cat) = Ok e /\ assoc "mass_1" e = Ok m /\ length m = n) as (first & e & m & E1 & E2 & E3 & Lm).
  { destruct RC as (N & H). destruct (ct_names cat) as [|x l]; [congruence|]. destruct (H x "mass_1") as (v & (e & X1 & X2) & Lv); [now left|now left|]. exists x, e, v. auto. }
  rewrite E1. cbn [rbind]. rewrite E2. cbn [rbind]. rewrite E3. cbn [rbind]. rewrite Lm, Er. cbn [rbind].
  destruct (each_ok (fun p => do col <- each (assoc p) rows; Ok (p, col)) (fun p kv => fst kv = p /\ Forall2 (fun ev row => samples_are cat ev p row) (ct_names cat) (snd kv)) (params ++ "prior" :: nil)) as (pe & Ep & Fp).
  { intros p P. assert (exists col, each (assoc p) rows = Ok col /\ Forall2 (fun ev row => samples_are cat ev p row) (ct_names cat) col) as (col & Ec & Fc).
    { clear -Fr P. induction Fr as [|ev row evs rows H Fr IH]; [exists []; split; [reflexivity|constructor]|]. destruct (H p P) as (v & Ev & Sv). destruct IH as (col & Ec & Fc). exists (v :: col). cbn [each]. rewrite Ev. cbn [rbind]. rewrite Ec. split; [reflexivity|now constructor]. }
    rewrite Ec. cbn [rbind]. eexists. split; [reflexivity|]. now split. }
  rewrite Ep. cbn [rbind].
  destruct (each_ok (fun p => do v <- assoc p (ddel "analysis_time" (ddel "total_generated" inj)); Ok (p, v)) (fun p kv => fst kv = p /\ assoc p inj = Ok (snd kv)) (params ++ "prior" :: nil)) as (ij & Ei & Fi).
  { intros p P. destruct (HI p) as (N0 & N1 & v & Ev); [apply in_app_iff in P; cbn in P; intuition|]. rewrite !del_other by assumption. rewrite Ev. cbn [rbind]. eexists. split; [reflexivity|]. now split. }
  rewrite Ei. cbn [rbind]. eexists. split; [reflexivity|].
  destruct (keyed (fun p col => Forall2 (fun ev row => samples_are cat ev p row) (ct_names cat) col) _ _ Fp) as (K1 & G1). destruct (keyed (fun p v => assoc p inj = Ok v) _ _ Fi) as (K2 & G2). unfold arrays_of. cbn [in_pe in_inj in_nobs in_ninj in_tobs]. repeat (split; [assumption || reflexivity|]).
  intros p P. assert (Ip : In p (params ++ "prior" :: nil)) by (apply in_app_iff; cbn; intuition). destruct (G1 p Ip) as (rws & R1 & R2). destruct (G2 p Ip) as (v & V1 & V2). exists rws, v. auto.
Qed.
(** an event without one of the parameters *)
Lemma setup_missing lc li d info semi params spin cat (f : R) inj t0 t1 n p ev : spin_model params spin -> assoc "catalog_summary_json" d = Ok info -> assoc "seminanalytic_injs" d = Ok semi ->
  lc info spin = Ok cat -> ct_far cat = Fin f -> f <> 0 -> li (ct_injfile cat) (Fin (1 / f)) spin semi = Ok inj -> assoc "total_generated" inj = Ok t0 -> assoc "analysis_time" inj = Ok t1 ->
  (forall ev, In ev (ct_names cat) -> exists e, assoc ev (ct_pe cat) = Ok e /\ (forall q v, assoc q e = Ok v -> length v = n) /\ exists m, assoc "mass_1" e = Ok m) ->
  In ev (ct_names cat) -> p = "prior" \/ In p params -> (forall v, ~ samples_are cat ev p v) -> setup lc li (YMap d) params = Err KeyError.
Proof.
  intros S A1 A2 L F NZ I T0 T1 H Iev P NS. rewrite (setup_front lc li d info semi params spin cat f inj t0 t1); try assumption.
  assert (KE : forall A k (d : dict A), assoc k d = Err KeyError \/ exists v, assoc k d = Ok v).
  { clear. intros A k d. induction d as [|[k' v] d IH]; cbn; [now left|]. destruct (String.eqb k k'); eauto. }
  assert (exists first e m, match ct_names cat with [] => Err IndexError | n0 :: _ => Ok n0 end = Ok first /\ assoc first (ct_pe cat) = Ok e /\ assoc "mass_1" e = Ok m /\ length m = n) as (first & e & m & E1 & E2 & E3 & Lm).
  { destruct (ct_names cat) as [|x l]; [destruct Iev|]. destruct (H x) as (e & X1 & X2 & m & X3); [now left|]. exists x, e, m. eauto. }
  rewrite E1. cbn [rbind]. rewrite E2. cbn [rbind]. rewrite E3. cbn [rbind]. rewrite Lm.
  set (ps := params ++ "prior" :: nil). assert (Ip : In p ps) by (subst ps; apply in_app_iff; cbn; intuition).
  assert (R : forall x, In x (ct_names cat) -> event_rows (ct_pe cat) ps n x = Err KeyError \/ exists y, event_rows (ct_pe cat) ps n x = Ok y).
  { intros x Ix. destruct (H x Ix) as (ex & X1 & X2 & _). unfold event_rows. rewrite X1. cbn [rbind]. clearbody ps. clear Ip. induction ps as [|q ps IH]; [right; eexists; reflexivity|]. cbn [each].
    destruct (KE _ q ex) as [Q|[v Q]]; rewrite Q; cbn [rbind]; [now left|]. rewrite fill_same by (now apply (X2 q)). cbn [rbind].
    destruct IH as [IH|[y IH]]; rewrite IH; cbn [rbind]; [now left|right; eauto]. }
  rewrite (each_err _ (ct_names cat) ev KeyError Iev R); [reflexivity|].
  destruct (R ev Iev) as [Er|[y Er]]; [assumption|exfalso]. destruct (H ev Iev) as (ev' & X1 & X2 & _). unfold event_rows in Er. rewrite X1 in Er. cbn [rbind] in Er.
  assert (exists v, assoc p ev' = Ok v) as [v V].
  { clearbody ps. clear -Er Ip. revert y Er. induction ps as [|q ps IH]; intros y Er; [destruct Ip|]. cbn [each] in Er. destruct (assoc q ev') as [v|] eqn:Q; [|discriminate]. cbn [rbind] in Er.
    destruct Ip as [->|Ip]; [eauto|]. destruct (fill_row n v); [|discriminate]. cbn [rbind] in Er. destruct (each _ ps) as [ys|] eqn:Y in Er; [|discriminate]. eapply IH; eauto. }
  apply (NS v). exists ev'. auto.
Qed.
Lemma each_in {A B} (f : A -> result B) l bs : each f l = Ok bs -> Forall2 (fun a b => f a = Ok b) l bs.
Proof.
  revert bs. induction l as [|a l IH]; intros bs E; cbn [each] in E; [injection E as <-; constructor|]. destruct (f a) as [b|] eqn:F; [|discriminate]. cbn [rbind] in E. destruct (each f l) as [r|]; [|discriminate]. cbn [rbind] in E. injection E as <-. constructor; auto.
Qed.
Lemma each_here {A B} (f : A -> result B) l bs a : each f l = Ok bs -> In a l -> exists b, f a = Ok b.
Proof. intros E. apply each_in in E. induction E as [|x b l bs F _ IH]; intros []; subst; eauto. Qed.
(** a run that is not refused has the same number of samples everywhere, up to single values *)
Lemma setup_same lc li d info params spin cat r first e m : spin_model params spin -> assoc "catalog_summary_json" d = Ok info -> lc info spin = Ok cat -> setup lc li (YMap d) params = Ok r ->
  nth_error (ct_names cat) 0 = Some first -> assoc first (ct_pe cat) = Ok e -> assoc "mass_1" e = Ok m ->
  forall ev p, In ev (ct_names cat) -> p = "prior" \/ In p params -> exists v, samples_are cat ev p v /\ (length v = length m \/ length v = 1%nat).
Proof.
  intros S A1 L E N0 F M ev p Iev Ip. unfold setup in E. cbn [yget] in E. rewrite A1 in E. cbn [rbind] in E.
  assert (SP : (existsb (String.eqb "a_1") (params ++ "prior" :: nil) || existsb (String.eqb "chi_eff") (params ++ "prior" :: nil))%bool = spin).
  { assert (X : forall x, x <> "prior" -> existsb (String.eqb x) (params ++ "prior" :: nil) = true <-> In x params).
    { intros x NX. rewrite existsb_exists. split; [intros (y & Iy & Ey); apply String.eqb_eq in Ey; subst y; apply in_app_iff in Iy as [Iy|[Iy|[]]]; [exact Iy|congruence]|intros Ix; exists x; rewrite in_app_iff, String.eqb_refl; auto]. }
    destruct spin.
    - destruct S as [S _]. destruct (S eq_refl) as [J|J]; apply X in J; try discriminate; rewrite J; rewrite ?orb_true_r; reflexivity.
    - apply orb_false_iff. split; apply not_true_iff_false; intros J; apply X in J; try discriminate; destruct S as [_ S]; discriminate S; auto. }
  rewrite SP, L in E. cbn [rbind] in E. destruct (if neqb (ct_far cat) (Fin 0) then _ else _) as [ifar|]; [|discriminate]. cbn [rbind] in E. destruct (assoc "seminanalytic_injs" d) as [semi|]; [|discriminate]. cbn [rbind] in E.
  destruct (li _ _ _ _) as [inj|]; [|discriminate]. cbn [rbind] in E. destruct (assoc "total_generated" inj) as [t0|]; [|discriminate]. cbn [rbind] in E. destruct (assoc "analysis_time" _) as [t1|]; [|discriminate]. cbn [rbind] in E.
  destruct (ct_names cat) as [|x l] eqn:EN; [discriminate|]. cbn [nth_error] in N0. injection N0 as ->. cbn [rbind] in E. rewrite F in E. cbn [rbind] in E. rewrite M in E. cbn [rbind] in E.
  destruct (each (event_rows _ _ _) _) as [rows|] eqn:ER; [|discriminate]. destruct (each_here _ _ _ ev ER Iev) as [row R]. unfold event_rows in R.
  destruct (each_here _ _ _ p R) as [pr P]; [apply in_app_iff; cbn; intuition|]. cbn beta in P. destruct (assoc ev (ct_pe cat)) as [ex|] eqn:X1; [|discriminate]. cbn [rbind] in P. destruct (assoc p ex) as [v|] eqn:X2; [|discriminate]. cbn [rbind] in P.
  exists v. split; [exists ex; auto|]. unfold fill_row in P. destruct (Nat.eqb_spec (length v) (length m)); [now left|right]. destruct v as [|y [|]]; try discriminate. reflexivity.
Qed.
(** a configuration with a python file *)
Lemma python_file_params {C} (import : string -> string -> result C) d m path (c : parsed C) : assoc "models" d = Ok (YMap m) -> mem "python_file" m = true -> assoc "python_file" m = Ok (YStr path) ->
  parse import (YMap d) new_reader = Ok c -> keys (r_models (p_reader c)) = "file_path" :: nil.
Proof. intros A M P E. unfold parse in E. rewrite A in E. cbn [rbind] in E. unfold construct_model_and_prior_dicts in E. cbn [yin rbind] in E. rewrite M in E. cbn [yget rbind] in E. rewrite P in E. cbn [rbind] in E. injection E as <-. reflexivity. Qed.
Lemma run_python_file {C} (import : string -> string -> result C) lc li d m path x dc info semi cat (f : R) inj t0 t1 n :
  assoc "models" d = Ok (YMap m) -> assoc "python_file" m = Ok (YStr path) -> snd (load_model_from_python_file import path) = Ok x -> assoc "data" d = Ok (YMap dc) ->
  assoc "catalog_summary_json" dc = Ok info -> assoc "seminanalytic_injs" dc = Ok semi -> lc info false = Ok cat -> ct_far cat = Fin f -> f <> 0 -> li (ct_injfile cat) (Fin (1 / f)) false semi = Ok inj ->
  assoc "total_generated" inj = Ok t0 -> assoc "analysis_time" inj = Ok t1 ->
  (forall ev, In ev (ct_names cat) -> exists e, assoc ev (ct_pe cat) = Ok e /\ (forall q v, assoc q e = Ok v -> length v = n) /\ exists m, assoc "mass_1" e = Ok m) ->
  ct_names cat <> [] -> (forall ev v, ~ samples_are cat ev "file_path" v) -> run_inference import lc li (YMap d) = Err KeyError.
Proof.
  intros A P LX D A1 A2 L F NZ I T0 T1 H N NS. assert (M : mem "python_file" m = true).
  { clear -P. induction m as [|[k v] m IH]; [discriminate|]. cbn [assoc mem] in *. destruct (String.eqb "python_file" k); [reflexivity|]. cbn [orb]. auto. }
  unfold run_inference. assert (exists c, parse import (YMap d) new_reader = Ok c /\ r_models (p_reader c) = ("file_path", EIid path) :: nil /\ p_data c = YMap dc) as (c & Ec & Em & Ed).
  { unfold parse, construct_model_and_prior_dicts. rewrite A. cbn [rbind yin]. rewrite M. cbn [rbind yget]. rewrite P. cbn [rbind]. eexists. split; [reflexivity|]. split; [reflexivity|]. cbn [p_data]. unfold pop. now rewrite D. }
  rewrite Ec. cbn [rbind]. rewrite Em. replace (assoc "file_path" (("file_path", @EIid C path) :: nil)) with (Ok (@EIid C path)) by reflexivity. rewrite LX. cbn [rbind]. rewrite Ed. cbn [keys map fst].
  destruct (ct_names cat) as [|ev l] eqn:EN; [congruence|].
  rewrite (setup_missing lc li dc info semi ("file_path" :: nil) false cat f inj t0 t1 n "file_path" ev); try assumption; [reflexivity|..].
  - unfold spin_model. cbn. intuition discriminate.
  - rewrite EN. exact H.
  - rewrite EN. now left.
  - right. now left.
  - intros v. apply NS.
Qed.
Lemma run_models {C} (import : string -> string -> result C) lc li yml k r : run_inference import lc li yml = Ok (k, r) ->
  exists c, parse import yml new_reader = Ok c /\ setup lc li (p_data c) (keys (r_models (p_reader c))) = Ok r /\ yget "kernel" (p_sampler c) = Ok (YStr k) /\ (k = "NUTS" \/ k = "HMC").
Proof.
  unfold run_inference. intros E. destruct (parse import yml new_reader) as [c|] eqn:P; [|discriminate]. cbn [rbind] in E. exists c. split; [reflexivity|].
  match type of E with rbind ?x _ = _ => destruct x; [|discriminate] end. cbn [rbind] in E.
  destruct (setup lc li (p_data c) (keys (r_models (p_reader c)))) as [r'|] eqn:S; [|discriminate]. cbn [rbind] in E.
  destruct (yget "kernel" (p_sampler c)) as [y|] eqn:Y; [|discriminate]. cbn [rbind] in E. destruct y; cbn [ystr rbind] in E; try discriminate.
  destruct (existsb (String.eqb s) KERNELS) eqn:K; [|discriminate]. cbn [rbind] in E.
  destruct (yget "kernel_kwargs" (p_sampler c)); [|discriminate]. cbn [rbind] in E. destruct (yget "mcmc_kwargs" (p_sampler c)); [|discriminate]. cbn [rbind] in E. injection E as <- <-.
  split; [reflexivity|]. split; [reflexivity|]. apply existsb_eqb in K. destruct K as [<-|[<-|[]]]; auto.
Qed.

Lemma missing_imports : forall m n, In (m, n) script_imports ->
  import_from (m, n) = if (String.eqb n "load_catalog_from_metadata" || String.eqb n "load_injection_dataset")%bool then Err ImportError else Ok tt.
Proof.
  intros m n H. cbn [script_imports In] in H.
  repeat (destruct H as [E|H]; [injection E as <- <-; reflexivity|]). destruct H.
Qed.
