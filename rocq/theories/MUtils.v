(** gwinferno/pipeline/utils.py: loading, prior helpers and export. *)
From Verif Require Export MParser MSmoothing.
Open Scope R_scope.
Open Scope string_scope.
Open Scope list_scope.

(** ** Loading (utils.py:51-96) *)

(** The file written by save_posterior_samples_and_injection_datasets_as_idata: posteriors with dimensions
    (event, param, samples), injections with dimensions (param, injection), and two attributes.
    Coordinate labels are distinct; [total_generated] and [analysis_time] are passed through as numbers. *)
Record idata : Type := IData {
  i_events : list string; i_pe_params : list string; i_post : list (list (list num));
  i_inj_params : list string; i_inj : list (list num); i_total : num; i_time : num }.

(** array.sel(param=k): position of the label (KeyError when absent) *)
Fixpoint index_of (k : string) (l : list string) : result nat :=
  match l with [] => Err KeyError | x :: r => if String.eqb k x then Ok O else do i <- index_of k r; Ok (S i) end.
Definition sel_param (params : list string) (k : string) (rows : list (list (list num))) : result (list (list num)) :=
  do i <- index_of k params; Ok (map (fun r => nth i r []) rows).
(** values[mask] *)
Fixpoint mask {A} (m : list bool) (l : list A) : list A :=
  match m, l with b :: m', x :: l' => if b then x :: mask m' l' else mask m' l' | _, _ => [] end.
(** {k: f(k) for k in ks} *)
Fixpoint dict_of {A} (f : string -> result A) (ks : list string) (d : dict A) : result (dict A) :=
  match ks with [] => Ok d | k :: r => do v <- f k; dict_of f r (dset k v d) end.

(** utils.py:77-81: sel = ~(event == any ignored name) *)
Definition keep_mask (events : list string) (ignore : list string) : list bool :=
  map negb (fold_left (fun sel gw => map2 orb sel (map (fun e => String.eqb e gw) events)) ignore (map (fun _ => false) events)).

Record constants : Type := Constants { k_total : num; k_time : num; k_nobs : nat }.
Definition load_pe_and_injections_as_dict (f : idata) (ignore : option (list string))
  : result (dict (list (list num)) * dict (list num) * constants * list string) :=
  do pe <- dict_of (fun k => do rows <- sel_param (i_pe_params f) k (i_post f);
                             Ok (match ignore with Some names => mask (keep_mask (i_events f) names) rows | None => rows end))
                   (i_pe_params f) [];
  do inj <- dict_of (fun k => do i <- index_of k (i_inj_params f); Ok (nth i (i_inj f) [])) (i_inj_params f) [];
  Ok (pe, inj, Constants (i_total f) (i_time f) (length (i_post f)), i_pe_params f).

(** ** Prior helpers (utils.py:163-216) *)

(** A sample site with a Normal(0, scale) prior and the drawn vector, or a factor site *)
Inductive psite : Type := SNormal (name : string) (scale : num) (v : list num) | SFactor (name : string) (v : num).
Definition PM (A : Type) : Type := (list psite * result A)%type.
Definition p_ret {A} (a : A) : PM A := ([], Ok a).
Definition p_raise {A} (e : exn) : PM A := ([], Err e).
Definition p_bind {A B} (m : PM A) (f : A -> PM B) : PM B :=
  let '(s, r) := m in match r with Ok a => let '(s', r') := f a in (s ++ s', r') | Err e => (s, Err e) end.
Notation "'plet' x ':=' m 'in' k" := (p_bind m (fun x => k)) (at level 200, x pattern, m at level 100, k at level 200).

(** numpyro.sample(name, Normal(0, sig), sample_shape=(n,)): [rv name i] is the i-th entry drawn at the site.
    n = None is a TypeError. *)
Definition sample_vec (rv : string -> nat -> num) (name : string) (sig : num) (n : option nat) : PM (list num) :=
  match n with
  | None => p_raise TypeError
  | Some n => let v := map (rv name) (seq 0 n) in (SNormal name sig v :: nil, Ok v)
  end.
(** numpyro.factor(name, apply_difference_prior(cs, tau, degree)); tau = None is a TypeError *)
Definition smooth (name : string) (cs : list num) (tau : option num) (deg : nat) : PM unit :=
  match tau with
  | None => p_raise TypeError
  | Some t => (SFactor name (apply_difference_prior cs t deg) :: nil, Ok tt)
  end.
(** "_" + name if name is not None else "" *)
Definition suffix (name : option string) : string := match name with Some n => ("_" ++ n)%string | None => "" end.

Definition sample_smoothed (rv : string -> nat -> num) (site factor : string) (sig : num) (n : option nat) (tau : option num) (deg : nat) : PM (list num) :=
  plet cs := sample_vec rv site sig n in
  plet _ := smooth factor cs tau deg in
  p_ret cs.

(** utils.py:163-182.  The result: one vector, or both. *)
Inductive mass_result : Type := OneVec (v : list num) | TwoVecs (m q : list num).
Definition bspline_mass_prior (rv : string -> nat -> num) (m_nsplines q_nsplines : option nat) (m_tau q_tau : option num) (name : option string)
  (m_cs_sig q_cs_sig : num) (m_deg q_deg : nat) : PM mass_result :=
  let name := suffix name in
  plet m := match m_nsplines with
    | Some _ => plet v := sample_smoothed rv ("mass_cs" ++ name)%string ("mass_smoothing_prior" ++ name)%string m_cs_sig m_nsplines m_tau m_deg in p_ret (Some v)
    | None => p_ret None end in
  plet q := match q_nsplines with
    | Some _ => plet v := sample_smoothed rv ("q_cs" ++ name)%string ("q_smoothing_prior" ++ name)%string q_cs_sig q_nsplines q_tau q_deg in p_ret (Some v)
    | None => p_ret None end in
  match m, q with
  | Some m, None => p_ret (OneVec m)
  | None, Some q => p_ret (OneVec q)
  | None, None => p_raise AssertionError
  | Some m, Some q => p_ret (TwoVecs m q)
  end.

(** utils.py:185-208, returning (a, tilt) for IID and (a1, tilt1, a2, tilt2) otherwise *)
Definition bspline_spin_prior (rv : string -> nat -> num) (a_nsplines ct_nsplines : option nat) (a_tau ct_tau : option num) (name : option string) (IID : bool)
  (a_cs_sig ct_cs_sig : num) (a_deg ct_deg : nat) : PM (list (list num)) :=
  let name := suffix name in
  if IID then
    plet a := sample_smoothed rv ("a_cs" ++ name)%string ("a_smoothing_prior" ++ name)%string a_cs_sig a_nsplines a_tau a_deg in
    plet ct := sample_smoothed rv ("tilt_cs" ++ name)%string ("ct_smoothing_prior" ++ name)%string ct_cs_sig ct_nsplines ct_tau ct_deg in
    p_ret [a; ct]
  else
    plet a1 := sample_smoothed rv ("a1_cs" ++ name)%string ("a1_smoothing_prior" ++ name)%string a_cs_sig a_nsplines a_tau a_deg in
    plet a2 := sample_smoothed rv ("a2_cs" ++ name)%string ("a2_smoothing_prior" ++ name)%string a_cs_sig a_nsplines a_tau a_deg in
    plet ct1 := sample_smoothed rv ("tilt1_cs" ++ name)%string ("ct1_smoothing_prior" ++ name)%string ct_cs_sig ct_nsplines ct_tau ct_deg in
    plet ct2 := sample_smoothed rv ("tilt2_cs" ++ name)%string ("ct2_smoothing_prior" ++ name)%string ct_cs_sig ct_nsplines ct_tau ct_deg in
    p_ret [a1; ct1; a2; ct2].

(** utils.py:211-216.  z_nsplines = None: None - 1 is a TypeError; 0 splines ask for a sample of shape (-1,)
    (the error depends on the JAX version: OtherError). *)
Definition bspline_redshift_prior (rv : string -> nat -> num) (z_nsplines : option nat) (z_tau : option num) (name : option string)
  (z_cs_sig : num) (z_deg : nat) : PM (list num) :=
  let name := suffix name in
  match z_nsplines with
  | None => p_raise TypeError
  | Some O => p_raise OtherError
  | Some (S n) =>
      plet cs := sample_vec rv ("z_cs" ++ name)%string z_cs_sig (Some n) in
      let cs := Fin 0 :: cs in
      plet _ := smooth ("z_smoothing_prior" ++ name)%string cs z_tau z_deg in
      p_ret cs
  end.

(** ** Export (utils.py:219-250) *)

(** An n-dimensional array: shape and flat data *)
Record ndarray : Type := NDArray { nd_shape : list nat; nd_data : list num }.
(** A value of the posterior dictionary: an array, or what the function puts in its place *)
Inductive post_val : Type := Raw (a : ndarray) | Wrapped (dims : list string) (a : ndarray).

(** utils.py:221-227 for one key; a second pass over wrapped values fails (a dict has no shape) *)
Definition wrap (key : string) (v : post_val) : result post_val :=
  match v with
  | Wrapped _ _ => Err AttributeError
  | Raw a => match nd_shape a with
             | [] => Err IndexError
             | _ :: rest => Ok (Wrapped ("draw" :: map (fun i => (key ++ "_dim" ++ dec (i + 2))%string) (seq 0 (length rest))) a)
             end
  end.
(** the loop, which changes the caller's dictionary key by key *)
Fixpoint wrap_all (done todo : dict post_val) : dict post_val * result unit :=
  match todo with
  | [] => (done, Ok tt)
  | (k, v) :: r => match wrap k v with Ok v' => wrap_all (done ++ (k, v') :: nil) r | Err e => (done ++ todo, Err e) end
  end.
(** the sizes of the dimensions must agree across the variables (xarray raises ValueError) *)
Definition dims_of (v : post_val) : list (string * nat) := match v with Raw _ => [] | Wrapped ds a => combine ds (nd_shape a) end.
Definition sizes_agree (l : list (string * nat)) : bool :=
  forallb (fun p => forallb (fun q => (negb (String.eqb (fst p) (fst q)) || Nat.eqb (snd p) (snd q))%bool) l) l.
(** utils.py:219-229: (the caller's dictionary afterwards, the data set's variables) *)
Definition posterior_dict_to_xarray (posteriors : dict post_val) : dict post_val * result (dict post_val) :=
  let '(d, r) := wrap_all [] posteriors in
  (d, do _ <- r; if sizes_agree (flat_map (fun kv => dims_of (snd kv)) d) then Ok d else Err ValueError).

(** A value of the pdf dictionary: one (draw, grid) array, or one per sub-population *)
Inductive pdf_val : Type := OnePdf (a : arr2) | PerPop (l : list arr2).
(** item[i] (numpy); a row of a 2-d array is one-dimensional *)
Definition pdf_item (v : pdf_val) (i : nat) : result (option arr2) :=
  match v with
  | PerPop l => match nth_error l i with Some a => Ok (Some a) | None => Err IndexError end
  | OnePdf a => if (i <? length (a_rows a))%nat then Ok None else Err IndexError
  end.
(** variables of the data set: name, (dims, array).  None stands for an array that is not two-dimensional,
    which xarray rejects (ValueError). *)
Definition dvars : Type := dict (list string * option arr2).
(** d | d' *)
Definition union {A} (d d' : dict A) : dict A := fold_left (fun d kv => dset (fst kv) (snd kv) d) d' d.
Fixpoint single_vars (i : nat) (nm : string) (pdfs : dict pdf_val) : result dvars :=
  match pdfs with
  | [] => Ok []
  | (key, item) :: r => do a <- pdf_item item i; do rest <- single_vars i nm r; Ok (((nm ++ "_" ++ key ++ "_pdfs")%string, (["draw"; key], a)) :: rest)
  end.
Fixpoint all_vars (i : nat) (names : list string) (pdfs : dict pdf_val) (d : dvars) : result dvars :=
  match names with [] => Ok d | nm :: r => do s <- single_vars i nm pdfs; all_vars (S i) r pdfs (union d s) end.
Definition whole (v : pdf_val) : option arr2 := match v with OnePdf a => Some a | PerPop _ => None end.
Fixpoint del {A} (k : string) (d : dict A) : dict A :=
  match d with [] => [] | (k', v) :: r => if String.eqb k k' then r else (k', v) :: del k r end.
(** xr.Dataset(vars, coords): dimension sizes must agree, including those of the coordinates; other checks
    of xarray (a variable named like a coordinate) are not modelled *)
Definition var_dims (v : list string * option arr2) : list (string * nat) :=
  match v with (ds, Some a) => combine ds [length (a_rows a); a_cols a] | (_, None) => [] end.
Definition dataset (vars : dvars) (coords : dict (list num)) : result (dvars * dict (list num)) :=
  if (forallb (fun kv => match snd (snd kv) with Some _ => true | None => false end) vars &&
      sizes_agree (flat_map (fun kv => var_dims (snd kv)) vars ++ map (fun kc => (fst kc, length (snd kc))) coords))%bool
  then Ok (vars, coords) else Err ValueError.

(** utils.py:232-250: (the caller's pdf_dict afterwards, the data set's variables and coordinates) *)
Definition pdf_dict_to_xarray (pdf_dict : dict pdf_val) (param_dict : dict (list num)) (n_samples : nat) (subpop_names : option (list string))
  : dict pdf_val * result (dvars * dict (list num)) :=
  let coords := union param_dict (("draw", map (fun i => Fin (INR i)) (seq 0 n_samples)) :: nil) in
  match subpop_names with
  | None =>
      let pdfs := map (fun kv => ((fst kv ++ "_pdfs")%string, (["draw"; fst kv], whole (snd kv)))) pdf_dict in
      (pdf_dict, dataset (union [] pdfs) coords)
  | Some names =>
      match assoc "redshift" pdf_dict with
      | Err e => (pdf_dict, Err e)
      | Ok _ =>
          let pdf_dict := del "redshift" pdf_dict in
          (pdf_dict, do vars <- all_vars 0 names pdf_dict []; dataset vars coords)
      end
  end.
