(** Vocabulary for the statements about postprocess/plot.py: order statistics of the draws, without reference to how they are computed. *)
From Coq Require Import Sorted Permutation.
From Verif Require Export MPlot.
Open Scope R_scope.
Open Scope string_scope.
Open Scope list_scope.

(** how many draws lie below, or at most at, a value *)
Definition below (v : R) (l : list R) : nat := length (filter (fun x => Rltb x v) l).
Definition upto (v : R) (l : list R) : nat := length (filter (fun x => Rleb x v) l).
(** the order statistics: v is the i-th smallest draw (from 0) *)
Definition is_ranked (l : list R) (i : nat) (v : R) : Prop := In v l /\ (below v l <= i < upto v l)%nat.
(** the value at the fractional position (n-1) p/100 *)
Definition is_percentile (p : nat) (l : list R) (v : R) : Prop :=
  let pos := ((length l - 1) * p)%nat in let i := (pos / 100)%nat in
  exists a b, is_ranked l i a /\ is_ranked l (Nat.min (S i) (length l - 1)) b /\ v = a + (b - a) * (INR (pos mod 100) / 100).
(** the draws at grid point j *)
Definition draws_at (pdf : list (list R)) (j : nat) : list R := map (fun row => nth j row 0) pdf.
(** the curve and band of one population: at every grid point the median and the 5th and 95th percentile of the draws there *)
Definition draws_curve (loglog : bool) (label color : string) (x : list num) (pdf : list (list R)) (ds : list drawing) : Prop :=
  exists med low high, ds = [Curve loglog label color x (map Fin med); Band color x (map Fin low) (map Fin high)] /\
    length med = length x /\ length low = length x /\ length high = length x /\
    forall j, (j < length x)%nat -> is_percentile 50 (draws_at pdf j) (nth j med 0) /\ is_percentile 5 (draws_at pdf j) (nth j low 0) /\ is_percentile 95 (draws_at pdf j) (nth j high 0).
(** draws on a grid of n points *)
Definition good_draws (n : nat) (pdf : list (list R)) : Prop := pdf <> [] /\ Forall (fun row => length row = n) pdf.
Definition fins (pdf : list (list R)) : list (list num) := map (map Fin) pdf.
(** one curve and one band per population, in order, with its name and color *)
Inductive draws_all (loglog : bool) (x : list num) : list (list (list R)) -> list string -> list string -> list drawing -> Prop :=
| da_nil names colors : draws_all loglog x [] names colors []
| da_cons pdf pdfs nm names co colors ds ds' : draws_curve loglog nm co x pdf ds -> draws_all loglog x pdfs names colors ds' ->
    draws_all loglog x (pdf :: pdfs) (nm :: names) (co :: colors) (ds ++ ds').
Definition saved (save : bool) (file : string) : list drawing := if save then Saved file :: nil else [].
