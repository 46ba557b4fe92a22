(** Property theorems C111 (runs do not share files) and C112 (the batch script starts the runs that were asked for). *)
From Coq Require Import Lra Lia.
From Verif Require Import PJobs NumFacts.
From Verif Require Import SpecJobs.
From Coq Require Import List.
Import ListNotations.
Open Scope R_scope.
Open Scope string_scope.
Open Scope list_scope.

(** C111: a file name (whatever it is) in the directory of one run is the name of a file of another run only if both were started with the same label, lengths, seed and results directory *)
Theorem C111_runs_apart : forall show_float ns ns' l w s k d l' w' s' k' d' ld ld' f f', run_is ns l w s k d -> run_is ns' l' w' s' k' d' -> ~ occurs "/" l -> ~ occurs "/" l' ->
  setup_result_dir show_float ns = Ok ld -> setup_result_dir show_float ns' = Ok ld' -> ~ occurs "/" f -> ~ occurs "/" f' -> file_in (snd ld) f = file_in (snd ld') f' ->
  l = l' /\ w = w' /\ s = s' /\ k = k' /\ d = d' /\ f = f'.
Proof. exact runs_apart. Qed.
Print Assumptions C111_runs_apart.
(** posterior and curves are such files *)
Theorem C111_files : forall show_float ns l w s k d ld, run_is ns l w s k d -> ~ occurs "/" l -> setup_result_dir show_float ns = Ok ld -> ~ occurs "/" (fst ld) /\
  posterior_file ld = file_in (snd ld) (fst ld ++ "_posterior_samples.h5") /\ pdf_file ld = file_in (snd ld) (fst ld ++ "_pdfs.h5").
Proof. exact written_files. Qed.
Print Assumptions C111_files.
(** all five settings have to be there *)
Theorem C111_missing : forall show_float ns, (assoc "run_label" ns = Ok ANone \/ assoc "result_dir" ns = Ok ANone) ->
  (forall k, In k ["run_label"; "warmup"; "samples"; "rngkey"; "result_dir"] -> exists a, assoc k ns = Ok a) -> setup_result_dir show_float ns = Err TypeError.
Proof. exact dir_missing. Qed.
Print Assumptions C111_missing.
(** runs that differ in anything else (mass range, number of splines, data file, chains, ...) overwrite each other's files *)
Theorem C111_other_settings_refuted : forall show_float ns key v, ~ In key ["run_label"; "warmup"; "samples"; "rngkey"; "result_dir"] -> setup_result_dir show_float (dset key v ns) = setup_result_dir show_float ns.
Proof. exact dir_ignores. Qed.
Print Assumptions C111_other_settings_refuted.
Example C111_case : exists ns ld, parse_args (fun v => Some (Z.of_nat (String.length v))) (fun _ => None) example_options ["--run-label"; "a"; "--result-dir"; "out/x"; "--rngkey"; "12"; "--samples"; "1"] = Ok ns /\
  run_is ns "a" 1000 1 2 "out/x" /\ ~ occurs "/" "a" /\ setup_result_dir (fun _ => "") ns = Ok ld /\ ld = ("a_1000w_1s_rng2", "out/x/a/rngnum-2/1000w_1s").
Proof. do 2 eexists. split; [reflexivity|]. split; [repeat split|]. split; [intros [X|[]]; discriminate|]. split; reflexivity. Qed.

(** C112: the command in the script, split into words by bash, starts the requested program on the requested file with the requested lengths, label, directory and masses, the task number as seed, and defaults for the rest *)
Theorem C112_command : forall py_int py_float show_float ns j task k, reads_back py_int py_float show_float j -> job_is ns j -> plain_job show_float j -> plain task -> py_int task = Some k ->
  exists name lines ns', job_script show_float ns = Ok (name, lines) /\
    (let words := shell_words task (nth 14 lines "") in firstn 2 words = [j_python j; j_script j] /\ parse_args py_int py_float example_options (skipn 2 words) = Ok ns') /\
    run_is ns' (j_label j) (j_warmup j) (j_samples j) k (j_dir j) /\ assoc "mmin" ns' = Ok (AFloat (Fin (j_mmin j))) /\ assoc "mmax" ns' = Ok (AFloat (Fin (j_mmax j))) /\ assoc "pe_inj_file" ns' = Ok (AStr (j_file j)) /\
    (forall o, In o example_options -> o_type o <> THelp -> ~ In (o_flag o) ["--samples"; "--warmup"; "--rngkey"; "--run-label"; "--result-dir"; "--mmin"; "--mmax"; "--pe-inj-file"] -> assoc (o_dest o) ns' = Ok (o_default o)).
Proof. exact job_run. Qed.
Print Assumptions C112_command.
(** different tasks of one script never write the same file *)
Theorem C112_tasks_apart : forall py_int py_float show_float ns j task task' k k', reads_back py_int py_float show_float j -> job_is ns j -> plain_job show_float j -> ~ occurs "/" (j_label j) ->
  plain task -> plain task' -> py_int task = Some k -> py_int task' = Some k' -> k <> k' ->
  exists name lines ns1 ns2 ld1 ld2, job_script show_float ns = Ok (name, lines) /\ parse_args py_int py_float example_options (skipn 2 (shell_words task (nth 14 lines ""))) = Ok ns1 /\
    parse_args py_int py_float example_options (skipn 2 (shell_words task' (nth 14 lines ""))) = Ok ns2 /\ setup_result_dir show_float ns1 = Ok ld1 /\ setup_result_dir show_float ns2 = Ok ld2 /\
    forall f f', ~ occurs "/" f -> ~ occurs "/" f' -> file_in (snd ld1) f <> file_in (snd ld2) f'.
Proof. exact tasks_apart. Qed.
Print Assumptions C112_tasks_apart.
(** the messages go to the directory that contains the results of all tasks, and the time line carries the limit below *)
Theorem C112_logs : forall py_int py_float show_float ns j task k, reads_back py_int py_float show_float j -> job_is ns j -> plain_job show_float j -> plain task -> py_int task = Some k ->
  exists name lines ns' ld rest, job_script show_float ns = Ok (name, lines) /\ parse_args py_int py_float example_options (skipn 2 (shell_words task (nth 14 lines ""))) = Ok ns' /\ setup_result_dir show_float ns' = Ok ld /\
    String.prefix ("#SBATCH --output=" ++ j_dir j ++ "/" ++ j_label j ++ "/rng_%a.out") (nth 3 lines "") = true /\ snd ld = (j_dir j ++ "/" ++ j_label j ++ "/" ++ rest)%string /\
    String.prefix ("#SBATCH --time=" ++ show_int (job_time (j_time j) (j_partition j)) ++ " ") (nth 5 lines "") = true.
Proof. exact job_logs. Qed.
Print Assumptions C112_logs.
(** at most what was asked for, at most a day outside the long partitions, and exactly what was asked for where that is allowed *)
Theorem C112_time : forall t p, (job_time t p <= t)%Z /\ ((job_time t p <= 1440)%Z \/ contains "long" p = true) /\ ((t <= 1440)%Z \/ contains "long" p = true -> job_time t p = t).
Proof. exact time_limit. Qed.
Print Assumptions C112_time.
(** a missing file, interpreter, script or directory is refused: no, the script is written with the word None *)
Theorem C112_missing_refuted : forall show_float ns key, key <> "time" -> job_script show_float (dset key ANone ns) = job_script show_float (dset key (AStr "None") ns).
Proof. exact none_text. Qed.
Print Assumptions C112_missing_refuted.
Definition C112_int (s : string) : option Z := match NilZero.int_of_string s with Some d => Some (Z.of_int d) | None => None end.
Definition C112_float (s : string) : option num := if String.eqb s "2.0" then Some (Fin 2) else if String.eqb s "200.0" then Some (Fin 200) else None.
Definition C112_show (x : num) : string := match x with Fin r => if Rleb r 2 then "2.0" else "200.0" | _ => "nan" end.
Definition C112_job : job := Job "/env/python" "run.py" "a" "out" "pe.h5" 500 1000 2 200 3000 "gpulong".
Example C112_case : exists ns, parse_args C112_int C112_float job_options ["--python-path"; "/env/python"; "--analysis-script"; "run.py"; "--label"; "a"; "--result-dir"; "out"; "--pe-inj-file"; "pe.h5"; "--nsamples"; "500"; "--time"; "3000"; "--partition"; "gpulong"] = Ok ns /\
  job_is ns C112_job /\ plain_job C112_show C112_job /\ reads_back C112_int C112_float C112_show C112_job /\ ~ occurs "/" (j_label C112_job) /\ plain "3" /\ C112_int "3" = Some 3%Z /\ job_time 3000 "gpulong" = 3000%Z /\ job_time 3000 "gpu" = 1440%Z.
Proof.
  assert (S2 : C112_show (Fin 2) = "2.0") by (unfold C112_show; rewrite Rleb_t by lra; reflexivity). assert (S200 : C112_show (Fin 200) = "200.0") by (unfold C112_show; rewrite Rleb_f by lra; reflexivity).
  assert (PL : forall s, negb (String.eqb s "") && negb (existsb (fun c => Ascii.eqb c " " || Ascii.eqb c "$") (list_ascii_of_string s)) && negb (String.prefix "-" s) = true -> plain s).
  { intros s E. apply andb_prop in E as [E E3]. apply andb_prop in E as [E1 E2]. apply negb_true_iff in E1, E2, E3. split; [intros ->; discriminate|]. split; [|split; [|exact E3]];
      intros O; (apply Bool.not_true_iff_false in E2; apply E2; apply existsb_exists; eexists; split; [exact O|reflexivity]). }
  eexists. split; [reflexivity|]. split.
  { repeat (split; [reflexivity|]). intros k I. cbn in I. decompose [or] I; try contradiction; subst; eexists; reflexivity. }
  split. { unfold plain_job. cbn [C112_job j_python j_script j_label j_dir j_file j_mmin j_mmax j_samples j_warmup]. rewrite S2, S200. repeat (split; [apply PL; reflexivity|]). split; lia. }
  split. { split; [|cbn [C112_job j_mmin j_mmax]; rewrite S2, S200; split; reflexivity]. intros z. unfold C112_int, show_int. assert (N : forall y, Z.to_int y <> Decimal.Pos Decimal.Nil /\ Z.to_int y <> Decimal.Neg Decimal.Nil).
    { intros y. split; intros E; pose proof (DecimalZ.of_to y) as O; rewrite E in O; cbn in O; subst y; discriminate. }
    rewrite NilZero.isi by apply N. now rewrite DecimalZ.of_to. }
  split; [intros [X|[]]; discriminate|]. split; [apply PL; reflexivity|]. split; [reflexivity|]. split; reflexivity.
Qed.
