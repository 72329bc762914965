(** ProbabilityLearner: what it computes and what select does with its answer. *)
From Coq Require Import Reals Lra Lia List.
From Verif Require Import M_Base M_RBase M_Normal M_Pareto M_Select M_GP M_PBest M_Prob S_PBest S_Prob P_Base P_Normal P_PBest P_PBest2.
Import ListNotations.
Local Open Scope R_scope.

Lemma greedy_none ext continues kind n mu K i : prob_greedy ext continues kind n mu K <> Ok (Some i).
Proof. unfold prob_greedy. destruct kind; try discriminate. destruct (prob_values ext n mu K); cbn [bind]; [|discriminate]. destruct continues; discriminate. Qed.
Lemma total_values ext n mu K : total_cdf (ext_full ext) -> exists p, prob_values ext n mu K = Ok p.
Proof.
  intro H. unfold prob_values. generalize (seq 0 n). intro l. induction l as [|i l [p IH]]; [exists []; reflexivity|]. cbn [mapM]. destruct (H (mu_star mu n i) (K_star K n i)) as [q [-> _]]. cbn [bind]. rewrite IH. cbn [bind]. eauto.
Qed.
Lemma total_greedy ext n mu K : total_cdf (ext_full ext) -> prob_greedy ext true KindPrefGP n mu K = Ok None.
Proof. intro H. unfold prob_greedy. destruct (total_values ext n mu K H) as [p ->]. reflexivity. Qed.
Lemma values_two ext mu0 mu1 a b c : exact_zero (ext_full ext) -> 0 < a + c - 2 * b ->
  prob_values ext 2 [mu0; mu1] [[a; b]; [b; c]] = Ok [ndtr ((mu0 - mu1) / sqrt (a + c - 2 * b)); ndtr ((mu1 - mu0) / sqrt (a + c - 2 * b))].
Proof.
  intros E Hv. unfold prob_values. cbn [seq mapM].
  change (mu_star [mu0; mu1] 2 0) with [mu1 - mu0]. change (K_star [[a; b]; [b; c]] 2 0) with [[a + c - b - b]]. change (mu_star [mu0; mu1] 2 1) with [mu0 - mu1]. change (K_star [[a; b]; [b; c]] 2 1) with [[c + a - b - b]].
  rewrite !E by lra. cbn [bind]. replace (a + c - b - b) with (a + c - 2 * b) by ring. replace (c + a - b - b) with (a + c - 2 * b) by ring. replace (- (mu1 - mu0)) with (mu0 - mu1) by ring. replace (- (mu0 - mu1)) with (mu1 - mu0) by ring. reflexivity.
Qed.
Lemma values_two_order ext mu0 mu1 a b c p0 p1 : exact_zero (ext_full ext) -> 0 < a + c - 2 * b ->
  prob_values ext 2 [mu0; mu1] [[a; b]; [b; c]] = Ok [p0; p1] -> (mu1 < mu0 <-> p1 < p0) /\ p0 + p1 = 1.
Proof.
  intros E Hv H. rewrite (values_two ext mu0 mu1 a b c E Hv) in H. injection H as <- <-. set (s := sqrt (a + c - 2 * b)).
  assert (Hs : 0 < / s) by (apply Rinv_0_lt_compat, sqrt_lt_R0; auto). split.
  - split; intro H.
    + apply ndtr_increasing. apply Rmult_lt_compat_r; auto. lra.
    + destruct (Rlt_or_le mu1 mu0) as [L|L]; auto. exfalso. assert (ndtr ((mu0 - mu1) / s) <= ndtr ((mu1 - mu0) / s)); [|lra].
      apply ndtr_le. apply Rmult_le_compat_r; lra.
  - replace ((mu1 - mu0) / s) with (- ((mu0 - mu1) / s)) by (unfold Rdiv; ring). rewrite ndtr_sym. ring.
Qed.
(** a loop that gets no index fails in its first round *)
Lemma loop_fails greedy n N prev fuel k pref allo sel : (forall k idx P i, greedy k idx P <> Ok (Some i)) -> (length sel < n)%nat -> fails (sel_loop_o greedy n N prev fuel k pref allo sel).
Proof.
  intros G L. unfold fails. destruct fuel as [|fuel]; cbn [sel_loop_o]; rewrite (proj2 (Nat.leb_gt _ _) L); [eauto|].
  assert (H : forall A, exists e, (do i <- greedy k A (union prev (indices sel)); set_remove_o i A) = Raise e).
  { intro A. assert (GA := G k A (union prev (indices sel))). destruct (greedy k A _) as [[i|]|e]; cbn; eauto. now destruct (GA i). }
  destruct pref as [|a pref].
  - destruct (match allo with None => _ | Some a => a end) as [|x al]; [eauto|]. destruct (H (x :: al)) as [e E]. exists e. destruct (greedy k (x :: al) _) as [i|]; cbn [bind] in *; [now rewrite E|congruence].
  - destruct (H (a :: pref)) as [e E]. exists e. destruct (greedy k (a :: pref) _) as [i|]; cbn [bind] in *; [now rewrite E|congruence].
Qed.
Lemma select_fails L greedy cand mu num_alts prev0 p : (forall k idx P i, greedy k idx P <> Ok (Some i)) ->
  (forall pref prev sel, sel_start L cand mu prev0 p = Ok (pref, prev, sel) -> (length sel < num_alts_of L num_alts)%nat) -> fails (select_o L greedy cand mu num_alts prev0 p).
Proof.
  intros G H. unfold select_o. destruct (sel_start L cand mu prev0 p) as [[[pref prev] sel]|e]; cbn [bind]; [|eexists; reflexivity]. apply loop_fails; auto. rewrite map_length. now apply (H pref prev).
Qed.
(** the other branch goes on for ever while there are preferred points *)
Lemma ns_endless greedy n prev pref al sel : (forall k idx P, greedy k idx P = Ok None) -> (length sel < n)%nat -> pref <> [] -> al <> [] ->
  forall fuel k notsel, ns_loop_o greedy n prev fuel k pref al notsel sel = Raise OutOfFuel.
Proof.
  intros G L HP HA. assert (E : ((n <=? length sel)%nat || (length al =? 0)%nat)%bool = false) by (rewrite (proj2 (Nat.leb_gt _ _) L); destruct al; [congruence|reflexivity]).
  induction fuel as [|fuel IH]; intros k notsel; cbn [ns_loop_o]; rewrite E; [reflexivity|]. destruct pref as [|a pref]; [congruence|]. rewrite G. cbn [bind place_o length Nat.eqb discard_o]. apply IH.
Qed.
Lemma select_ns_endless L greedy cand mu num_alts prev0 p pref prev sel : (forall k idx P, greedy k idx P = Ok None) -> sel_start L cand mu prev0 p = Ok (pref, prev, sel) ->
  (length sel < num_alts_of L num_alts)%nat -> pref <> [] -> diff (diff (seq 0 (length cand)) prev) sel <> [] -> forall fuel, select_ns_o L greedy cand mu num_alts prev0 p fuel = Raise OutOfFuel.
Proof. intros G E HL HP HA fuel. unfold select_ns_o. rewrite E. cbn [bind]. rewrite ns_endless; auto. now rewrite map_length. Qed.
(** the loops agree with those of M_Select when an index is returned *)
Lemma indices_some sel : indices (map Some sel) = sel.
Proof. induction sel as [|i sel IH]; [reflexivity|]. change (i :: indices (map Some sel) = i :: sel). now rewrite IH. Qed.
Lemma loop_same L n N prev : l_pair L = None -> forall fuel k pref allo sel,
  sel_loop_o (fun k idx P => do i <- l_greedy L k idx P; Ok (Some i)) n N prev fuel k pref allo (map Some sel) = do r <- sel_loop L true n N prev fuel k pref allo sel; Ok (map Some r).
Proof.
  intros HL. induction fuel as [|fuel IH]; intros k pref allo sel; cbn [sel_loop_o sel_loop]; rewrite map_length; destruct (n <=? length sel)%nat; try reflexivity.
  rewrite indices_some, HL. destruct (true && (length sel =? 0)%nat)%bool; (destruct pref as [|a pref];
  [destruct (match allo with None => _ | Some a => a end) as [|x al]; [reflexivity|]; destruct (l_greedy L k (x :: al) _) as [i|]; cbn [bind set_remove_o]; [|reflexivity]; destruct (set_remove i (x :: al)); cbn [bind]; [|reflexivity]; rewrite <- IH, map_app; reflexivity
  |destruct (l_greedy L k (a :: pref) _) as [i|]; cbn [bind set_remove_o]; [|reflexivity]; destruct (set_remove i (a :: pref)); cbn [bind]; [|reflexivity]; rewrite <- IH, map_app; reflexivity]).
Qed.
Lemma select_same L cand mu num_alts prev0 p : l_pair L = None ->
  select_o L (fun k idx P => do i <- l_greedy L k idx P; Ok (Some i)) cand mu num_alts prev0 p = do r <- select L cand mu num_alts prev0 p true; Ok (map Some r).
Proof. intro HL. unfold select_o, select. destruct (sel_start L cand mu prev0 p) as [[[pref prev] sel]|e]; cbn [bind]; [|reflexivity]. now apply loop_same. Qed.
(** models other than PreferenceGP: the first step of either loop raises *)
Lemma other_models L ext continues kind N m K cand mu num_alts prev0 p pref prev sel : kind <> KindPrefGP -> sel_start L cand mu prev0 p = Ok (pref, prev, sel) -> (length sel < num_alts_of L num_alts)%nat ->
  (pref <> [] \/ diff (diff (seq 0 (length cand)) prev) sel <> [] -> select_o L (fun _ _ _ => prob_greedy ext continues kind N m K) cand mu num_alts prev0 p = Raise UnboundLocalError) /\
  (diff (diff (seq 0 (length cand)) prev) sel <> [] -> forall fuel, (0 < fuel)%nat -> select_ns_o L (fun _ _ _ => prob_greedy ext continues kind N m K) cand mu num_alts prev0 p fuel = Raise UnboundLocalError).
Proof.
  intros HK HS HL. assert (G : prob_greedy ext continues kind N m K = Raise UnboundLocalError) by (destruct kind; [congruence|reflexivity|reflexivity] || (destruct kind; congruence || reflexivity)).
  assert (I : indices (map Some sel) = sel) by (unfold indices; clear; induction sel as [|x l IH]; [reflexivity|cbn; now rewrite IH]).
  split; [intro H|intros H fuel HF]; [unfold select_o|unfold select_ns_o]; rewrite HS; cbn [bind].
  - destruct (num_alts_of L num_alts) as [|n] eqn:En; [lia|]. cbn [sel_loop_o]. rewrite map_length. destruct (Nat.leb_spec (S n) (length sel)) as [C|C]; [lia|]. destruct pref as [|x pref].
    + rewrite I. destruct H as [H|H]; [congruence|]. destruct (diff _ sel); [congruence|]. now rewrite G.
    + now rewrite G.
  - destruct fuel as [|fuel]; [lia|]. cbn [ns_loop_o]. rewrite map_length. destruct (Nat.leb_spec (num_alts_of L num_alts) (length sel)) as [C|C]; [lia|]. cbn [orb]. destruct (diff _ sel) as [|y al] eqn:E; [congruence|]. cbn [length Nat.eqb]. destruct pref; rewrite G; reflexivity.
Qed.
