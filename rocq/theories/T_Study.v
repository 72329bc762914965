(** Theorems about the analysis of the study data (other/study_analysis_2022/read_study.py). *)
From Coq Require Import Reals ZArith QArith Lra Lia List.
From Verif Require Import M_Base M_RBase M_Pareto M_Pairs M_Select M_Store M_Train M_Study S_Study P_RBase P_Study.
Import ListNotations.
Local Open Scope R_scope.

(** the models of the script: those with a data store, and the sum of the rewards *)
Theorem C175_models : forall pred g, (forall a b X, pred a b X = Ok (g a b X)) -> (forall a b X, length (g a b X) = length X) ->
  honest (store_predict pred) store_add reset stored (fun d X => g (sX d) (sRel d) X) plus_store empty_store /\ (forall b, empty_store (stored (init b)) = stored (init b)).
Proof.
exact (fun pred g HP HL => conj (store_honest pred g HP HL) (fun b => eq_refl)).
Qed.
Print Assumptions C175_models.
Theorem C175_sum_model : honest sum_predict sum_add (fun m => m) (fun m => m) (fun (_ : unit) X => map rsum X) (fun d _ _ => d) (fun d => d).
Proof.
exact sum_honest.
Qed.
Print Assumptions C175_sum_model.

(** the measured value is the share of the choices that the model predicts; measuring leaves the data alone *)
Theorem C175_accuracy : forall M P D predict madd mreset (obs : M -> D) f plus empty, @honest M P D predict madd mreset obs f plus empty ->
  forall es m, offers es -> exists m' a, eval_model M P predict m es = Ok (m', a) /\ obs m' = obs m /\ accuracy (f (obs m)) es a /\ 0 <= a <= 1 /\ (forall b, accuracy (f (obs m)) es b -> b = a).
Proof.
exact study_accuracy.
Qed.
Print Assumptions C175_accuracy.

(** entry k of a run is the accuracy after the first k training choices, in any order of the training data *)
Theorem C175_training : forall M P D predict madd mreset (obs : M -> D) f plus empty, @honest M P D predict madd mreset obs f plus empty ->
  forall d order m, offers (evals d) -> (forall j, In j order -> (j < length (train d))%nat) -> (length order <= length (train d))%nat ->
  exists m' row, train_eval M P predict madd m d (Some order) = Ok (m', row) /\ run_accuracies f plus (obs m) d order row.
Proof.
exact study_training.
Qed.
Print Assumptions C175_training.
Theorem C175_long_order : forall M P D predict madd mreset (obs : M -> D) f plus empty, @honest M P D predict madd mreset obs f plus empty ->
  forall d order m, offers (evals d) -> (forall j, In j order -> (j < length (train d))%nat) -> (length (train d) < length order)%nat -> train_eval M P predict madd m d (Some order) = Raise IndexError.
Proof.
exact (fun M P D predict madd mreset obs f plus empty H d order m => run_long predict madd mreset obs f plus empty H d order m).
Qed.
Print Assumptions C175_long_order.

(** every run starts from a model without data, whatever the runs before it contained *)
Theorem C175_fresh : forall M P D predict madd mreset (obs : M -> D) f plus empty, @honest M P D predict madd mreset obs f plus empty ->
  forall d0 ds m, (forall d, In d (d0 :: ds) -> offers (evals d) /\ length (train d) = length (train d0)) -> empty (obs m) = obs m ->
  exists m' rows, process_all_data M P predict madd mreset m (d0 :: ds) = Ok (m', rows) /\ Forall2 (fun d row => run_accuracies f plus (obs m) d (seq 0 (length (train d0))) row) (d0 :: ds) rows.
Proof.
exact (fun M P D predict madd mreset obs f plus empty H d0 ds m => process_ok predict madd mreset obs f plus empty H (d0 :: ds) d0 ds m eq_refl).
Qed.
Print Assumptions C175_fresh.

(** the reported spreads of the linear model and of the sum *)
Theorem C175_report : forall acc_l acc_gp acc_s j,
  snd (fst (fst (report acc_l acc_gp acc_s j))) = spread acc_l j /\ snd (snd (report acc_l acc_gp acc_s j)) = spread acc_s j.
Proof.
exact study_report.
Qed.
Print Assumptions C175_report.

(** refuted: runs of different lengths are not all measured; the script fails *)
Theorem C175_ragged_refuted : forall M P D predict madd mreset (obs : M -> D) f plus empty, @honest M P D predict madd mreset obs f plus empty ->
  forall d0 d1 ds m, offers (evals d0) -> offers (evals d1) -> length (train d1) <> length (train d0) -> train d1 <> [] -> process_all_data M P predict madd mreset m (d0 :: d1 :: ds) = Raise ValueError.
Proof.
exact (fun M P D predict madd mreset obs f plus empty H d0 d1 ds m => ragged predict madd mreset obs f plus empty H d0 d1 ds m).
Qed.
Print Assumptions C175_ragged_refuted.
(** refuted: a run without training data fails too; its accuracy is repeated as if the model had been trained *)
Theorem C175_broadcast_refuted : forall M P D predict madd mreset (obs : M -> D) f plus empty, @honest M P D predict madd mreset obs f plus empty ->
  forall d0 d1 m, offers (evals d0) -> offers (evals d1) -> train d1 = [] -> train d0 <> [] -> empty (obs m) = obs m ->
  exists m' r0 a, process_all_data M P predict madd mreset m [d0; d1] = Ok (m', [r0; repeat (Some a) (S (length (train d0)))]) /\ accuracy (f (obs m)) (evals d1) a.
Proof.
exact (fun M P D predict madd mreset obs f plus empty H d0 d1 m => untrained_row predict madd mreset obs f plus empty H d0 d1 m).
Qed.
Print Assumptions C175_broadcast_refuted.
(** refuted: every entry of a run is a measured accuracy; after a shorter order the rest is uninitialised memory *)
Theorem C175_short_order_refuted : forall M P D predict madd mreset (obs : M -> D) f plus empty, @honest M P D predict madd mreset obs f plus empty ->
  forall d order m, offers (evals d) -> (forall j, In j order -> (j < length (train d))%nat) -> (length order < length (train d))%nat ->
  exists m' row, train_eval M P predict madd m d (Some order) = Ok (m', row) /\ nth_error row (length (train d)) = Some None.
Proof.
exact study_short.
Qed.
Print Assumptions C175_short_order_refuted.
(** refuted: a model that does not tell the options apart scores like chance; it scores the share of the choices of the first option *)
Theorem C175_untrained_refuted : forall P (g : list P -> list R) c es a, (forall X, g X = repeat c (length X)) -> offers es -> accuracy g es a ->
  exists k, counts (fun s => preferred s = 0%nat) es k /\ a = INR k / INR (length es).
Proof.
exact (@flat_accuracy).
Qed.
Print Assumptions C175_untrained_refuted.
(** refuted: the reported spread of the GP is that of its accuracies *)
Theorem C175_spread_refuted :
  (forall acc_l acc_gp acc_gp' acc_s j, length acc_gp = length acc_gp' -> snd (snd (fst (report acc_l acc_gp acc_s j))) = snd (snd (fst (report acc_l acc_gp' acc_s j)))) /\
  exists acc_l acc_gp, length acc_l = length acc_gp /\ forall acc_s, snd (snd (fst (report acc_l acc_gp acc_s 0))) = 0 /\ 0 < spread acc_gp 0.
Proof.
exact (conj report_gp gp_spread_wrong).
Qed.
Print Assumptions C175_spread_refuted.

(** ---- examples ---- *)
Definition ex_d0 : srun (list R) := mkRun [mkSample [[1; 0]; [0; 0]] 1] [mkSample [[1; 1]; [0; 1]] 0; mkSample [[1; 0]; [3; 0]] 0].
Definition ex_d1 : srun (list R) := mkRun [] [mkSample [[1; 1]; [0; 1]] 0].
Definition ex_d2 : srun (list R) := mkRun [mkSample [[1; 0]; [0; 0]] 1; mkSample [[1; 0]; [2; 0]] 1] [mkSample [[1; 1]; [0; 1]] 1].
Example C175_offers_example : offers (evals ex_d0) /\ offers (evals ex_d1) /\ offers (evals ex_d2).
Proof. repeat split; try discriminate; cbn; intros s Hs; repeat (destruct Hs as [<-|Hs]; [discriminate|]); destruct Hs. Qed.
Example C175_accuracy_example : accuracy (map rsum) (evals ex_d0) (1 / 2) /\ accuracy (map rsum) (evals ex_d2) 0.
Proof.
  split.
  - exists 1%nat. split; [|cbn; lra]. apply counts_yes; [|apply counts_no; [|constructor]].
    + split; [cbn; lia|]. split; [intros [|[|j]] Hj; cbn in *; lra || lia|intros j Hj; cbn in *; lia].
    + intros [_ [T _]]. specialize (T 1%nat ltac:(cbn; lia)). cbn in T. lra.
  - exists 0%nat. split; [|cbn; lra]. apply counts_no; [|constructor]. intros [_ [T _]]. specialize (T 0%nat ltac:(cbn; lia)). cbn in T. lra.
Qed.
Example C175_choice_example : choice (mkSample [[1; 0]; [0; 0]; [2; 2]] 1) = [((-1)%Z, 1, 0); ((-1)%Z, 1, 2)]%nat.
Proof. reflexivity. Qed.
(** a fit that scores an option by the number of stored pairs it would win: predictions depend on the data *)
Definition ex_fit (x : option (list row)) (r : option (list pair)) (X : list row) : list R := map (fun j => match r with None => 0 | Some ps => INR j * INR (length ps) end) (seq 0 (length X)).
Example C175_models_example : (forall a b X, (fun a b X => Ok (ex_fit a b X)) a b X = Ok (ex_fit a b X)) /\ (forall a b X, length (ex_fit a b X) = length X) /\
  ex_fit None None [[0%Q]; [1%Q]] <> ex_fit (Some [[0%Q]; [1%Q]]) (Some (choice (mkSample [[0%Q]; [1%Q]] 1))) [[0%Q]; [1%Q]].
Proof. split; [reflexivity|]. split; [intros; unfold ex_fit; now rewrite map_length, seq_length|]. unfold ex_fit. cbn. intro H. injection H. intros. lra. Qed.
Example C175_training_example : exists m' row, train_eval unit (list R) sum_predict sum_add tt ex_d0 None = Ok (m', row) /\ length row = 2%nat.
Proof. destruct (C175_training _ _ _ _ _ _ _ _ _ _ C175_sum_model ex_d0 [0%nat] tt (proj1 C175_offers_example)) as [m' [row [E [L _]]]]; [intros j [<-|[]]; cbn; lia|cbn; lia|]. exists m', row. split; [exact E|exact L]. Qed.
Example C175_long_order_example : train_eval unit (list R) sum_predict sum_add tt ex_d0 (Some [0%nat; 0%nat]) = Raise IndexError.
Proof. apply (C175_long_order _ _ _ _ _ _ _ _ _ _ C175_sum_model); [exact (proj1 C175_offers_example)|intros j [<-|[<-|[]]]; cbn; lia|cbn; lia]. Qed.
Example C175_fresh_example : (forall d, In d [ex_d0; ex_d0] -> offers (evals d) /\ length (train d) = length (train ex_d0)) /\ (fun d : unit => d) ((fun m : unit => m) tt) = tt.
Proof. split; [intros d [<-|[<-|[]]]; (split; [exact (proj1 C175_offers_example)|reflexivity])|reflexivity]. Qed.
Example C175_ragged_example : process_all_data unit (list R) sum_predict sum_add (fun m => m) tt [ex_d0; ex_d2] = Raise ValueError.
Proof. apply (C175_ragged_refuted _ _ _ _ _ _ _ _ _ _ C175_sum_model); [exact (proj1 C175_offers_example)|exact (proj2 (proj2 C175_offers_example))|discriminate|discriminate]. Qed.
Example C175_broadcast_example : exists m' r0 a, process_all_data unit (list R) sum_predict sum_add (fun m => m) tt [ex_d0; ex_d1] = Ok (m', [r0; [Some a; Some a]]).
Proof. destruct (C175_broadcast_refuted _ _ _ _ _ _ _ _ _ _ C175_sum_model ex_d0 ex_d1 tt) as [m' [r0 [a [E _]]]]; [exact (proj1 C175_offers_example)|exact (proj1 (proj2 C175_offers_example))|reflexivity|discriminate|reflexivity|]. exists m', r0, a. exact E. Qed.
Example C175_short_order_example : exists m' row, train_eval unit (list R) sum_predict sum_add tt ex_d2 (Some [1%nat]) = Ok (m', row) /\ nth_error row 2 = Some None.
Proof. apply (C175_short_order_refuted _ _ _ _ _ _ _ _ _ _ C175_sum_model); [exact (proj2 (proj2 C175_offers_example))|intros j [<-|[]]; cbn; lia|cbn; lia]. Qed.
(** two options, always the first one chosen: a model without an opinion scores 1 *)
Example C175_untrained_example : accuracy (fun X => repeat 0 (length X)) (evals ex_d0) 1.
Proof. exists 2%nat. split; [|cbn; lra]. repeat apply counts_yes; try constructor; cbn; try lia; (split; [intros [|[|j]] Hj; cbn in *; lra || lia|intros j Hj; lia]). Qed.
Example C175_report_example : spread [[0]; [1]] 0 = sqrt (/ 4) / sqrt 2.
Proof. unfold spread. cbn [map nth length rsum]. replace (INR 2) with 2 by (cbn; lra). f_equal. f_equal. field. Qed.
