(** Which curve dictionaries can be exported. *)
From Coq Require Import Lia.
From Verif Require Export PUtils.
From Verif Require Import PConstruct PAnalysisNames.
Open Scope R_scope.
Open Scope string_scope.
Open Scope list_scope.

Lemma in_coords grid n k g : is_dict grid -> ~ In "draw" (keys grid) -> assoc k grid = Ok g -> In (k, length g) (map (fun kc => (fst kc, length (snd kc))) (coords_of grid n)).
Proof.
  intros ND N H. unfold coords_of. rewrite union_dict.
  - rewrite map_app. apply in_or_app. left. apply in_map_iff. exists (k, g). split; [reflexivity|]. clear ND N. induction grid as [|[k' v] grid IH]; cbn in H; [discriminate|]. destruct (String.eqb k k') eqn:E; [apply String.eqb_eq in E; subst; injection H as ->; now left|right; auto].
  - apply NoDup_app_; [exact ND | repeat constructor; easy |]. intros x Hx [<-|[]]. contradiction.
Qed.
Lemma in_draws grid n : is_dict grid -> ~ In "draw" (keys grid) -> In ("draw", n) (map (fun kc => (fst kc, length (snd kc))) (coords_of grid n)).
Proof.
  intros ND N. unfold coords_of. rewrite union_dict.
  - rewrite map_app. apply in_or_app. right. left. cbn [fst snd]. rewrite map_length, seq_length. reflexivity.
  - apply NoDup_app_; [exact ND | repeat constructor; easy |]. intros x Hx [<-|[]]. contradiction.
Qed.
Lemma export_exactly pdfs grid n : is_dict pdfs -> is_dict grid -> ~ In "draw" (keys pdfs) -> ~ In "draw" (keys grid) ->
  (exportable n grid pdfs -> exists vars, pdf_dict_to_xarray pdfs grid n None = (pdfs, Ok (vars, coords_of grid n)) /\ length vars = length pdfs /\
    forall key a, In (key, OnePdf a) pdfs -> assoc (key ++ "_pdfs")%string vars = Ok (["draw"; key], Some a)) /\
  (~ exportable n grid pdfs -> pdf_dict_to_xarray pdfs grid n None = (pdfs, Err ValueError)).
Proof.
  intros Dp Dg Np N. set (vars := map (fun kv : string * pdf_val => ((fst kv ++ "_pdfs")%string, (["draw"; fst kv], whole (snd kv)))) pdfs).
  assert (NDv : NoDup (keys vars)).
  { apply (map_keys_nodup (fun k => (k ++ "_pdfs")%string) (fun kv => (["draw"; fst kv], whole (snd kv)))); [|exact Dp]. intros a b. apply sapp_inv_tail. }
  assert (EQ : pdf_dict_to_xarray pdfs grid n None = (pdfs, dataset vars (coords_of grid n))).
  { unfold pdf_dict_to_xarray. fold (coords_of grid n). fold vars. rewrite (union_dict [] vars) by exact NDv. reflexivity. }
  rewrite EQ. clear EQ. unfold dataset. split.
  - intros H. exists vars. replace (_ && _)%bool with true.
    + split; [reflexivity|]. split; [unfold vars; apply map_length|]. intros key a Hin. apply in_assoc; [exact NDv|]. unfold vars. apply in_map_iff. exists (key, OnePdf a). auto.
    + symmetry. apply Bool.andb_true_iff. split.
      * apply forallb_forall. intros [name [dims oa]] Hin. unfold vars in Hin. apply in_map_iff in Hin. destruct Hin as [[key v] [E Hin]]. cbn in E. injection E as <- <- <-. destruct (H _ _ Hin) as (a & -> & _). reflexivity.
      * apply sizes_agree_spec.
        assert (S : forall k m, In (k, m) (flat_map (fun kv => var_dims (snd kv)) vars ++ map (fun kc => (fst kc, length (snd kc))) (coords_of grid n)) ->
          (k = "draw" /\ m = n) \/ (k <> "draw" /\ exists a, In (k, OnePdf a) pdfs /\ m = a_cols a /\ forall g, assoc k grid = Ok g -> length g = m) \/ (k <> "draw" /\ exists g, assoc k grid = Ok g /\ length g = m)).
        { intros k m Hin. apply in_app_or in Hin. destruct Hin as [Hin|Hin].
          - apply in_flat_map in Hin. destruct Hin as [[name [dims oa]] [Hv Hin]]. unfold vars in Hv. apply in_map_iff in Hv. destruct Hv as [[key v] [E Hv]]. cbn in E. injection E as <- <- <-. destruct (H _ _ Hv) as (a & -> & F1 & F2).
            cbn in Hin. destruct Hin as [[= <- <-]|[[= <- <-]|[]]]; auto. right. left. split; [intros ->; apply Np; apply in_map_iff; exists ("draw", OnePdf a); auto|]. exists a. auto.
          - apply coords_sizes in Hin; auto. destruct Hin as [Hin|Hin]; [auto|]. right. right. split; [|exact Hin]. intros ->. apply N, assoc_keys. destruct Hin as [g [Hg _]]. eauto. }
        intros k a b Ha Hb. apply S in Ha, Hb.
        destruct Ha as [[-> ->]|[[N1 (x & X1 & X2 & X3)]|[N1 [g [G1 G2]]]]], Hb as [[E ->]|[[N2 (y & Y1 & Y2 & Y3)]|[N2 [g' [G3 G4]]]]]; try congruence.
        -- apply in_assoc in X1; auto. apply in_assoc in Y1; auto. congruence.
        -- rewrite (X3 _ G3) in G4. auto.
        -- rewrite (Y3 _ G1) in G2. auto.
  - intros H. apply (f_equal (pair pdfs)). destruct (_ && _)%bool eqn:E; [|reflexivity]. exfalso. apply H. apply Bool.andb_true_iff in E as [E1 E2]. rewrite forallb_forall in E1. rewrite sizes_agree_spec in E2.
    intros key v Hin. assert (HV : In ((key ++ "_pdfs")%string, (["draw"; key], whole v)) vars) by (unfold vars; apply in_map_iff; exists (key, v); auto).
    specialize (E1 _ HV). destruct v as [a|l]; cbn in E1; [|discriminate]. exists a. split; [reflexivity|].
    assert (D : forall d m, In (d, m) [("draw", length (a_rows a)); (key, a_cols a)] -> In (d, m) (flat_map (fun kv => var_dims (snd kv)) vars)).
    { intros d m Hd. apply in_flat_map. exists ((key ++ "_pdfs")%string, (["draw"; key], Some a)). split; [exact HV|exact Hd]. }
    split.
    + apply (E2 "draw"); apply in_or_app; [left; apply D; now left|right; apply in_draws; auto].
    + intros g Hg. symmetry. apply (E2 key); apply in_or_app; [left; apply D; right; now left|right; apply in_coords; auto].
Qed.
