(** Property C181: observations of a Gaussian process and their uncertainties *)
From Coq Require Import Reals Lra Lia List.
From Verif Require Import M_Base M_RBase M_Kernel M_Fake M_GP M_GPNoise S_Kernel S_Psd S_GP S_GPNoise P_GP P_GPNoise.
From Coq Require Import Reals Lra Lia List.
Import ListNotations.
Local Open Scope R_scope.

(** calls that give every point an output and an uncertainty store exactly these, since the last reset *)
Theorem C181_kept : forall mean h rss, Forall2 (says mean) h rss ->
  gin_run mean h = match observed rss with None => None | Some l => store (relative mean l) end.
Proof.
exact run_ok.
Qed.
Print Assumptions C181_kept.
(** and predictions are the posterior with the uncertainty of each point on the diagonal *)
Theorem C181_posterior : forall mean k h rss rs X d, Forall2 (says mean) h rss -> observed rss = Some rs -> rs <> [] ->
  separate k X (points_of rs) -> dim d X -> dim d (points_of rs) -> X <> [] -> pd (length rs) (train_cov k (points_of rs) (noise_of rs)) ->
  exists mu var, gp_predict mean k (gin_run mean h) X = Ok (mu, var) /\ length mu = length X /\ length var = length X /\
    forall i, (i < length X)%nat -> exists m v,
      posterior k (points_of rs) (obs_of (relative mean rs)) (train_cov k (points_of rs) (noise_of rs)) (pt X i) m v /\
      nth i mu 0 = m + prior_mean mean (pt X i) /\ nth i var 0 = Rmax 0 v.
Proof.
exact run_posterior.
Qed.
Print Assumptions C181_posterior.
(** numpy arrays of the wrong length are rejected for several outputs; lists of outputs are rejected without a mean function *)
Theorem C181_rejects : forall mean a X y l st, length y <> 1%nat -> length l <> 1%nat -> length l <> length y -> gp_add_in mean a X y (InArr l) st = Raise ValueError.
Proof.
exact rejects_noise.
Qed.
Print Assumptions C181_rejects.
Theorem C181_rejects_outputs : forall m a X y s st, length y <> 1%nat -> length X <> 1%nat -> length X <> length y ->
  gp_add_in (Some m) a X y (InNum s) st = Raise ValueError.
Proof.
exact rejects_outputs.
Qed.
Print Assumptions C181_rejects_outputs.
Theorem C181_list_outputs_refuted : forall X y s st, (forall n, exists sig, noise_in n s = Ok sig) -> gp_add_in None false X y s st = Raise TypeError.
Proof.
exact rejects_lists.
Qed.
Print Assumptions C181_list_outputs_refuted.
(** refuted: an array of uncertainties for one output is stored whole, and the next point gets its second entry [s1], not [s2] *)
Theorem C181_one_point_refuted : forall mean x y s0 s1 l x2 y2 s2,
  gin_run mean [InAdd true [x] [y] (InArr (s0 :: s1 :: l)); InAdd true [x2] [y2] (InNum s2)] =
    Some {| gX := [x; x2]; gy := [y - prior_mean mean x; y2 - prior_mean mean x2]; gsig := s0 :: s1 :: l ++ [s2] |} /\
  forall K, gp_cov K (s0 :: s1 :: l ++ [s2]) 1%nat 1%nat = mat_at K 1%nat 1%nat + s1.
Proof.
exact one_point_many.
Qed.
Print Assumptions C181_one_point_refuted.
(** refuted: a list that is too short is accepted; the second point gets the uncertainty of the third, the third that of the first *)
Theorem C181_short_list_refuted : forall mean a b c y1 y2 y3 s1 s2,
  gin_run mean [InAdd true [a; b] [y1; y2] (InSeq [s1]); InAdd true [c] [y3] (InNum s2)] =
    Some {| gX := [a; b; c]; gy := [y1 - prior_mean mean a; y2 - prior_mean mean b; y3 - prior_mean mean c]; gsig := [s1; s2] |} /\
  forall K, gp_cov K [s1; s2] 0%nat 0%nat = mat_at K 0%nat 0%nat + s1 /\ gp_cov K [s1; s2] 1%nat 1%nat = mat_at K 1%nat 1%nat + s2 /\ gp_cov K [s1; s2] 2%nat 2%nat = mat_at K 2%nat 2%nat + s1.
Proof.
exact short_list.
Qed.
Print Assumptions C181_short_list_refuted.
(** refuted: one output for several points is taken as the output of all of them with a mean function ... *)
Theorem C181_one_output_refuted : forall m X y s, gp_add_in (Some m) true X [y] (InNum s) None = Ok (Some {| gX := X; gy := map (fun x => y - m x) X; gsig := [s] |}).
Proof.
exact one_output_stretched.
Qed.
Print Assumptions C181_one_output_refuted.
(** ... and is accepted without one, but no prediction succeeds afterwards *)
Theorem C181_unusable_refuted : forall X y s k Q, length X <> 1%nat -> exists st, gp_add_in None true X [y] (InNum s) None = Ok st /\
  forall r, gp_predict None k st Q <> Ok r.
Proof.
exact one_output_unusable.
Qed.
Print Assumptions C181_unusable_refuted.
(** a call that failed and was caught changes nothing: later calls go on as if it had not been made *)
Theorem C181_failed : forall mean h a X y s e h', gp_add_in mean a X y s (gin_run mean h) = Raise e -> gin_run mean (h ++ InAdd a X y s :: h') = gin_run mean (h ++ h').
Proof.
exact failed_skipped.
Qed.
Print Assumptions C181_failed.
Example C181_failed_ex : gin_run None ([InAdd true [[1]] [5] (InNum 2)] ++ InAdd true [[2]; [3]] [5; 6] (InArr [1; 2; 3]) :: []) = Some {| gX := [[1]]; gy := [5 - 0]; gsig := [1 * 2] |}.
Proof.
rewrite (C181_failed None _ _ _ _ _ ValueError); [reflexivity|]. apply C181_rejects; discriminate.
Qed.
(** two calls, one with an array of one uncertainty and one with a list of outputs, around a reset *)
Definition ex_h : list gin_op := [InAdd true [[9]] [9] (InNum 9); InReset; InAdd true [[1]; [2]] [5; 6] (InArr [1 / 2]); InAdd false [[3]] [7] (InSeq [3])].
Definition ex_rs : list (option (list (point * R * R))) := [Some [([9], 9, 9)]; None; Some [([1], 5, 1 / 2); ([2], 6, 1 / 2)]; Some [([3], 7, 3)]].
Example C181_ex : Forall2 (says (Some (hd 0))) ex_h ex_rs /\ observed ex_rs = Some [([1], 5, 1 / 2); ([2], 6, 1 / 2); ([3], 7, 3)] /\
  gin_run (Some (hd 0)) ex_h = Some {| gX := [[1]; [2]; [3]]; gy := [5 - 1; 6 - 2; 7 - 3]; gsig := [1 / 2; 1 / 2; 3] |}.
Proof.
assert (F : Forall2 (says (Some (hd 0))) ex_h ex_rs).
{ unfold ex_h, ex_rs. constructor; [|constructor; [exact I|constructor; [|constructor; [|constructor]]]]; cbn; repeat (split; [first [reflexivity | now left | right; discriminate]|]); auto.
right. exists (1 / 2). auto. }
split; [exact F|]. split; [reflexivity|]. rewrite (run_ok _ _ _ F). reflexivity.
Qed.
Example C181_rejects_ex : gp_add_in None true [[1]; [2]] [5; 6] (InArr [1; 2; 3]) None = Raise ValueError /\ (forall n, exists sig, noise_in n (InSeq [1]) = Ok sig).
Proof.
split; [apply rejects_noise; discriminate|]. intros n. now exists [1].
Qed.
Example C181_posterior_ex : Forall2 (says None) [InAdd true [[1; 0]] [5] (InNum 1)] [Some [([1; 0], 5, 1)]] /\ dim 2 [[1; 1]] /\
  separate (Lin 1 0 0) [[1; 1]] (points_of [([1; 0], 5, 1)]) /\ pd 1 (train_cov (Lin 1 0 0) (points_of [([1; 0], 5, 1)]) (noise_of [([1; 0], 5, 1)])).
Proof.
split; [repeat constructor|]. split; [intros x [<- | []]; reflexivity|]. split; [left; exact I|].
intros v [i [Hi Hv]]. assert (i = 0%nat) by lia. subst i. cbn. unfold lin_call, rsum. cbn. nra.
Qed.
