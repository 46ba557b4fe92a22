(** gwinferno/postprocess/plot.py: the curves and bands handed to matplotlib. *)
From Coq Require Export String.
From Verif Require Export MPostprocess.
From Coq Require Import List.
Import ListNotations.
Open Scope R_scope.
Open Scope string_scope.
Open Scope list_scope.

(** ** numpy's order statistics, on one column of draws *)
Fixpoint ninsert (x : num) (l : list num) : list num :=
  match l with [] => x :: nil | y :: r => if nle x y then x :: l else y :: ninsert x r end.
Definition nsort (l : list num) : list num := fold_right ninsert [] l.
Definition has_nan (l : list num) : bool := existsb nisnan l.
(** np.median: the middle value, or the mean of the two middle values; NaN if there is a NaN *)
Definition nmedian (l : list num) : num :=
  if has_nan l then NaN else
  let s := nsort l in let n := length l in
  if Nat.odd n then nth (n / 2) s NaN else ndiv (nadd (nth (n / 2 - 1) s NaN) (nth (n / 2) s NaN)) (Fin 2).
(** np.percentile(., p), linear interpolation at position (n-1)*p/100 of the sorted values *)
Definition npercentile (p : nat) (l : list num) : num :=
  if has_nan l then NaN else
  let s := nsort l in let n := length l in
  let v := ((n - 1) * p)%nat in let i := (v / 100)%nat in
  let a := nth i s NaN in let b := nth (Nat.min (S i) (n - 1)) s NaN in
  nadd a (nmul (nsub b a) (Fin (INR (v mod 100) / 100))).
(** axis=0: column j of the draws *)
Definition column (pdf : list (list num)) (j : nat) : list num := map (fun row => nth j row NaN) pdf.
Definition width (pdf : list (list num)) : nat := match pdf with r :: _ => length r | [] => O end.

(** ** What is drawn *)
Inductive drawing : Type :=
| Curve (loglog : bool) (label color : string) (x med : list num)
| Band (color : string) (x low high : list num)
| Saved (file : string).
Definition DM : Type := (list drawing * result unit)%type.
Definition d_then (m k : DM) : DM := match m with (s, Ok _) => (s ++ fst k, snd k) | (s, Err e) => (s, Err e) end.
Definition d_do (d : drawing) : DM := (d :: nil, Ok tt).
(** lines 5-16.  Without draws the statistics are not modelled (OtherError); arrays of different lengths are matplotlib's ValueError. *)
Definition plot_pdf (x : list num) (pdf : list (list num)) (label color : string) (loglog : bool) : DM :=
  match pdf with [] => ([], Err OtherError) | _ :: _ =>
    let cols := map (column pdf) (seq 0 (width pdf)) in
    if negb (Nat.eqb (length x) (width pdf)) then ([], Err ValueError) else
    d_then (d_do (Curve loglog label color x (map nmedian cols)))
           (d_do (Band color x (map (npercentile 5) cols) (map (npercentile 95) cols)))
  end.
(** names[i], colors[i], pdfs[i] *)
Definition at_index {A} (l : list A) (i : nat) (k : A -> DM) : DM := match nth_error l i with Some a => k a | None => ([], Err IndexError) end.
(** for i in range(m): plot_pdf(x, pdfs[i], names[i], color=colors[i], loglog=...) ; the arguments are evaluated in this order *)
Definition plot_each (x : list num) (pdfs : list (list (list num))) (names colors : list string) (loglog : bool) (m : nat) : DM :=
  fold_left d_then (map (fun i => at_index pdfs i (fun pdf => at_index names i (fun nm => at_index colors i (fun co => plot_pdf x pdf nm co loglog)))) (seq 0 m)) ([], Ok tt).
(** x[0] and x[-1] in plt.xlim; an empty grid is an IndexError *)
Definition limits (x : list num) : DM := match x with [] => ([], Err IndexError) | _ :: _ => ([], Ok tt) end.
Definition saving (save : bool) (file : string) : DM := if save then d_do (Saved file) else ([], Ok tt).
Definition COLORS : list string := ["red"; "blue"; "green"].
(** lines 19-43 *)
Definition plot_mass_pdfs (mpdfs qpdfs : list (list (list num))) (m1 q : list num) (names : list string) (label result_dir : string) (save : bool) (colors : list string) : DM :=
  d_then (plot_each m1 mpdfs names colors true (length mpdfs))
  (d_then (limits m1)
  (d_then (saving save (result_dir ++ "/mass_pdf_" ++ label ++ ".png"))
  (d_then (plot_each q qpdfs names colors false (length mpdfs))
          (saving save (result_dir ++ "/mass_ratio_pdf_" ++ label ++ ".png"))))).
(** lines 46-77 *)
Definition plot_spin_pdfs (a_pdfs tilt_pdfs : list (list (list num))) (aa cc : list num) (names : list string) (label result_dir : string) (save : bool) (colors : list string) (secondary : bool) : DM :=
  let comp := if secondary then "2" else "1" in
  d_then (plot_each aa a_pdfs names colors false (length a_pdfs))
  (d_then (saving save (result_dir ++ "/spin_mag" ++ comp ++ "_pdf_" ++ label ++ ".png"))
  (d_then (plot_each cc tilt_pdfs names colors false (length tilt_pdfs))
          (saving save (result_dir ++ "/cos_tilt" ++ comp ++ "_pdf_" ++ label ++ ".png")))).
(** lines 80-93 *)
Definition plot_rate_of_z_pdfs (z_pdfs : list (list num)) (z : list num) (label result_dir : string) (save : bool) : DM :=
  d_then (plot_pdf z z_pdfs "redshift" "blue" true)
  (d_then (limits z) (saving save (result_dir ++ "/redshift_pdf_" ++ label ++ ".png"))).
