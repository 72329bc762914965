(** Lemmas about the observations a Gaussian process stores. *)
From Coq Require Import Reals Lra Lia List.
From Verif Require Import M_Base M_RBase M_Kernel M_Fake M_GP M_GPNoise S_Kernel S_Psd S_GP S_GPNoise P_GP P_GP2 P_GP3.
From Coq Require Import Reals Lra Lia List.
Import ListNotations.
Local Open Scope R_scope.

Lemma same_all {A} (v : A) (l : list A) : Forall (eq v) l -> l = repeat v (length l).
Proof. induction 1 as [|a l <- F IH]; cbn; congruence. Qed.
Lemma ones_times (l : list R) : zipw Rmult (repeat 1 (length l)) l = l.
Proof. induction l as [|a l IH]; cbn; [reflexivity|]. rewrite IH. f_equal. ring. Qed.
Lemma ones_scaled n s : map (fun one => one * s) (repeat 1 n) = repeat s n.
Proof. induction n; cbn; [reflexivity|]. rewrite IHn. f_equal. ring. Qed.
Lemma noise_in_ok s l : gives s l -> noise_in (length l) s = Ok l.
Proof.
  destruct s as [s|a|a]; cbn [gives noise_in]; intros H.
  - rewrite ones_scaled. f_equal. symmetry. apply same_all, H.
  - destruct H as [-> | [v [-> F]]].
    + unfold bzip. rewrite repeat_length, Nat.eqb_refl, ones_times. reflexivity.
    + rewrite (same_all v l F). rewrite repeat_length. unfold bzip. rewrite repeat_length. cbn [length].
      destruct (length l) as [|[|n]]; cbn [Nat.eqb repeat]; [reflexivity|cbn; do 2 f_equal; ring|].
      f_equal. change (1 :: 1 :: repeat 1 n) with (repeat 1 (S (S n))). apply (ones_scaled (S (S n)) v).
  - subst; reflexivity.
Qed.
Lemma centre_ok mean a rs : (a = true \/ mean <> None) -> centre mean a (points_of rs) (obs_of rs) = Ok (obs_of (relative mean rs)).
Proof.
  intros H. unfold centre. destruct mean as [m|].
  - unfold bzip, points_of, obs_of. rewrite !map_length, Nat.eqb_refl. f_equal. unfold relative. induction rs as [|[[x y] s] rs IH]; cbn; [reflexivity|]. f_equal; auto.
  - destruct H as [-> | H]; [|congruence]. f_equal. unfold relative, obs_of. rewrite !map_map. reflexivity.
Qed.
Lemma relative_points mean rs : points_of (relative mean rs) = points_of rs.
Proof. unfold relative, points_of. rewrite map_map. reflexivity. Qed.
Lemma relative_noise mean rs : noise_of (relative mean rs) = noise_of rs.
Proof. unfold relative, noise_of. rewrite map_map. reflexivity. Qed.
Lemma relative_app mean a b : relative mean (a ++ b) = relative mean a ++ relative mean b.
Proof. apply map_app. Qed.
Lemma step_ok mean p rs acc : says mean p rs ->
  gin_step mean (match acc with None => None | Some l => store (relative mean l) end) p =
  match (match rs with None => None | Some rs => Some (match acc with None => rs | Some l => l ++ rs end) end) with None => None | Some l => store (relative mean l) end.
Proof.
  destruct p as [a X y s|]; destruct rs as [rs|]; cbn [says]; try contradiction; [|reflexivity].
  intros (Ha & -> & -> & G). cbn [gin_step]. unfold gp_add_in.
  assert (E : length (obs_of rs) = length (noise_of rs)) by (unfold obs_of, noise_of; now rewrite !map_length).
  rewrite E, (noise_in_ok s _ G). cbn [bind]. rewrite (centre_ok mean a rs Ha). cbn [bind]. destruct acc as [l|]; unfold store.
  - cbn [gX gy gsig]. rewrite relative_app. unfold points_of, obs_of, noise_of. rewrite !map_app. fold points_of. unfold relative. rewrite !map_map. reflexivity.
  - rewrite relative_points, relative_noise. reflexivity.
Qed.
Lemma run_ok mean : forall h rss, Forall2 (says mean) h rss ->
  gin_run mean h = match observed rss with None => None | Some l => store (relative mean l) end.
Proof.
  intros h rss F. unfold gin_run, observed.
  assert (G : forall acc, fold_left (gin_step mean) h (match acc with None => None | Some l => store (relative mean l) end) =
    match fold_left (fun acc o => match o with None => None | Some rs => Some (match acc with None => rs | Some l => l ++ rs end) end) rss acc with
    None => None | Some l => store (relative mean l) end).
  { induction F as [|p rs h rss S F IH]; intros acc; [reflexivity|]. cbn [fold_left]. rewrite (step_ok mean p rs acc S). apply IH. }
  exact (G None).
Qed.
Lemma run_posterior mean k h rss rs X d : Forall2 (says mean) h rss -> observed rss = Some rs -> rs <> [] ->
  separate k X (points_of rs) -> dim d X -> dim d (points_of rs) -> X <> [] -> pd (length rs) (train_cov k (points_of rs) (noise_of rs)) ->
  exists mu var, gp_predict mean k (gin_run mean h) X = Ok (mu, var) /\ length mu = length X /\ length var = length X /\
    forall i, (i < length X)%nat -> exists m v,
      posterior k (points_of rs) (obs_of (relative mean rs)) (train_cov k (points_of rs) (noise_of rs)) (pt X i) m v /\
      nth i mu 0 = m + prior_mean mean (pt X i) /\ nth i var 0 = Rmax 0 v.
Proof.
  intros F O N S DX DY NX P. rewrite (run_ok mean h rss F), O. unfold store. rewrite relative_points, relative_noise.
  assert (L : length (points_of rs) = length rs) by (unfold points_of; apply map_length).
  apply (gp_textbook mean k (points_of rs) (obs_of (relative mean rs)) (noise_of rs) X d S DX DY NX).
  - intros E. apply N. destruct rs; [reflexivity|discriminate].
  - unfold obs_of, relative, points_of. now rewrite !map_length.
  - unfold noise_of, points_of. now rewrite !map_length.
  - rewrite L. exact P.
Qed.
Lemma bzip_reject {A B C} (f : A -> B -> C) a b : length a <> length b -> length a <> 1%nat -> length b <> 1%nat -> bzip f a b = Raise ValueError.
Proof.
  intros H H1 H2. unfold bzip. destruct (Nat.eqb_spec (length a) (length b)); [contradiction|].
  destruct a as [|x [|x' a]]; destruct b as [|y [|y' b]]; cbn in *; try lia; reflexivity.
Qed.
Lemma rejects_noise mean a X y l st : length y <> 1%nat -> length l <> 1%nat -> length l <> length y -> gp_add_in mean a X y (InArr l) st = Raise ValueError.
Proof. intros H H1 H2. unfold gp_add_in. cbn [noise_in]. rewrite bzip_reject; rewrite ?repeat_length; auto. Qed.
Lemma rejects_outputs m a X y s st : length y <> 1%nat -> length X <> 1%nat -> length X <> length y ->
  gp_add_in (Some m) a X y (InNum s) st = Raise ValueError.
Proof. intros H H1 H2. unfold gp_add_in. cbn [noise_in bind centre]. rewrite bzip_reject; rewrite ?map_length; auto. Qed.
Lemma rejects_lists X y s st : (forall n, exists sig, noise_in n s = Ok sig) -> gp_add_in None false X y s st = Raise TypeError.
Proof. intros H. unfold gp_add_in. destruct (H (length y)) as [sig ->]. reflexivity. Qed.

Lemma one_noise l : noise_in 1 (InArr l) = Ok l.
Proof.
  cbn [noise_in repeat]. assert (E : map (Rmult 1) l = l) by (rewrite (map_ext _ (fun z => z)) by (intros; ring); apply map_id).
  unfold bzip. destruct l as [|a [|b l]]; cbn [length Nat.eqb]; rewrite ?E; try reflexivity. cbn. do 2 f_equal. ring.
Qed.
Lemma centre_same mean X y : length y = length X -> centre mean true X y = Ok (zipw (fun v x => v - prior_mean mean x) y X).
Proof.
  intros H. unfold centre, prior_mean. destruct mean as [m|].
  - unfold bzip. rewrite map_length, H, Nat.eqb_refl. f_equal. clear H. revert X; induction y as [|v y IH]; intros [|x X]; cbn; auto. f_equal; auto.
  - f_equal. revert X H; induction y as [|v y IH]; intros [|x X] H; try discriminate; [reflexivity|]. cbn. f_equal. apply IH. now injection H.
Qed.
Lemma one_point_many mean x y s0 s1 l x2 y2 s2 :
  gin_run mean [InAdd true [x] [y] (InArr (s0 :: s1 :: l)); InAdd true [x2] [y2] (InNum s2)] =
    Some {| gX := [x; x2]; gy := [y - prior_mean mean x; y2 - prior_mean mean x2]; gsig := s0 :: s1 :: l ++ [s2] |} /\
  forall K, gp_cov K (s0 :: s1 :: l ++ [s2]) 1%nat 1%nat = mat_at K 1%nat 1%nat + s1.
Proof.
  split.
  - unfold gin_run. cbn [fold_left gin_step]. unfold gp_add_in. cbn [length]. rewrite one_noise. cbn [bind].
    rewrite !centre_same by reflexivity. cbn [zipw bind noise_in repeat map gX gy gsig app]. rewrite Rmult_1_l. reflexivity.
  - intros K. unfold gp_cov. cbn [Nat.eqb]. rewrite Nat.mod_small by (cbn [length]; lia). reflexivity.
Qed.
Lemma short_list mean a b c y1 y2 y3 s1 s2 :
  gin_run mean [InAdd true [a; b] [y1; y2] (InSeq [s1]); InAdd true [c] [y3] (InNum s2)] =
    Some {| gX := [a; b; c]; gy := [y1 - prior_mean mean a; y2 - prior_mean mean b; y3 - prior_mean mean c]; gsig := [s1; s2] |} /\
  forall K, gp_cov K [s1; s2] 0%nat 0%nat = mat_at K 0%nat 0%nat + s1 /\ gp_cov K [s1; s2] 1%nat 1%nat = mat_at K 1%nat 1%nat + s2 /\ gp_cov K [s1; s2] 2%nat 2%nat = mat_at K 2%nat 2%nat + s1.
Proof.
  split.
  - unfold gin_run. cbn [fold_left gin_step]. unfold gp_add_in. cbn [length noise_in bind].
    rewrite !centre_same by reflexivity. cbn [zipw bind repeat map gX gy gsig app]. rewrite Rmult_1_l. reflexivity.
  - intros K. repeat split; reflexivity.
Qed.
Lemma one_output_stretched m X y s : gp_add_in (Some m) true X [y] (InNum s) None = Ok (Some {| gX := X; gy := map (fun x => y - m x) X; gsig := [s] |}).
Proof.
  unfold gp_add_in. cbn [length noise_in repeat map bind centre]. rewrite Rmult_1_l.
  assert (E : bzip Rminus [y] (map m X) = Ok (map (fun x => y - m x) X)).
  { unfold bzip. rewrite map_length. destruct (Nat.eqb_spec (length [y]) (length X)) as [E|N].
    - destruct X as [|x [|x' X]]; try discriminate. reflexivity.
    - rewrite map_map. reflexivity. }
  rewrite E. reflexivity.
Qed.
Lemma one_output_unusable X y s k Q : length X <> 1%nat -> exists st, gp_add_in None true X [y] (InNum s) None = Ok st /\
  forall r, gp_predict None k st Q <> Ok r.
Proof.
  intros H. eexists; split; [reflexivity|]. intros r. unfold gp_predict. cbn [gX gy gsig].
  destruct (kcov k Q Q); cbn [bind]; [|discriminate]. destruct (kcov k Q X); cbn [bind]; [|discriminate]. destruct (kcov k X X); cbn [bind]; [|discriminate].
  destruct (chol _ _); [|discriminate]. cbn [map length]. destruct (Nat.eqb_spec 1 (length X)); [congruence|discriminate].
Qed.

Lemma failed_skipped mean h a X y s e h' : gp_add_in mean a X y s (gin_run mean h) = Raise e -> gin_run mean (h ++ InAdd a X y s :: h') = gin_run mean (h ++ h').
Proof. intro E. unfold gin_run in *. rewrite !fold_left_app. cbn [fold_left gin_step]. now rewrite E. Qed.
