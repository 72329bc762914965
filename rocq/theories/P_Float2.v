(** Consequences of underflow: rows without probabilities, wrong counts and gains that are not numbers. *)
From Coq Require Import Reals ZArith Lra Lia List Permutation Bool.
From Flocq Require Import Core.
From Verif Require Import M_Base M_RBase M_Fake M_Util M_Select M_Info M_Tune M_Float S_Util S_Info S_Tune S_Float P_RBase P_Util P_Info P_Info2 P_Tune P_Tune2 P_Float.
Import ListNotations.
Local Open Scope R_scope.

Lemma F2_nth {A B} (P : A -> B -> Prop) l m i a : Forall2 P l m -> nth_error l i = Some a -> exists b, nth_error m i = Some b /\ P a b.
Proof. intro H. revert i. induction H as [|x y l m Hxy H IH]; intros [|i] E; try discriminate; [injection E as ->; exists y; auto|apply IH; exact E]. Qed.
Lemma rows_ok sm r p : sums b64 sm -> sized r -> 0 < p ->
  (forall row, In row r -> exists v z, In v row /\ (0 <= z <= 2 ^ 53)%Z /\ IZR z * p <= 537 /\ forall w, In w (concat r) -> w - IZR z <= v) ->
  exists ps, choice_rows_fl b64 sm r p = Ok ps /\ Forall2 (fun row out => length out = length row /\ Forall unit_fin out) r ps.
Proof.
  intros HS [N L] Hp H. destruct (choice_matrix b64 sm r p b64_rounding HS N L Hp) as [mx [ps [I [M [E F]]]]]. exists ps. split; [exact E|]. assert (H' : forall row, In row r -> Exists (fun v => fweight b64 p mx v <> Fin 0) row).
  { intros row Hr. destruct (H row Hr) as [v [z [Hv [Hz [Lz Lw]]]]]. apply Exists_exists. exists v. split; [exact Hv|]. apply (weight_kept p mx v z); auto. split; [now apply Lw|]. apply M, in_concat. eauto. }
  clear -F H'. induction F as [|row out r ps [Le C] F IH]; constructor; [|apply IH; intros; apply H'; now right]. split; [exact Le|]. destruct C as [[A _]|[_ A]]; [|exact A]. exfalso. destruct (proj1 (Exists_exists _ _) (H' row (or_introl eq_refl))) as [v [Hv Nv]]. apply Nv. rewrite Forall_forall in A. now apply A.
Qed.
Lemma rows_nan sm r p i row : sums b64 sm -> sized r -> 0 < p -> nth_error r i = Some row ->
  (forall v, In v row -> exists w z, In w (concat r) /\ (0 <= z <= 2 ^ 53)%Z /\ v <= w - IZR z /\ 1076 <= IZR z * p) ->
  exists ps out, choice_rows_fl b64 sm r p = Ok ps /\ nth_error ps i = Some out /\ length out = length row /\ Forall (fun x => x = NaN) out.
Proof.
  intros HS [N L] Hp Hi H. destruct (choice_matrix b64 sm r p b64_rounding HS N L Hp) as [mx [ps [I [M [E F]]]]]. exists ps. destruct (F2_nth _ _ _ _ _ F Hi) as [out [Ho [Le C]]]. exists out. repeat split; auto. destruct C as [[_ A]|[A _]]; [exact A|]. exfalso. apply Exists_exists in A. destruct A as [v [Hv Nv]]. apply Nv. destruct (H v Hv) as [w [z [Hw [Hz [Lv Lz]]]]]. apply (weight_flush b64 p mx v z b64_rounding b64_flushes Hp Hz); auto. assert (K := M w Hw). lra.
Qed.
Lemma nan_max row : row <> [] -> Forall (fun x => x = NaN) row -> fold_right fmax NInf row = NaN.
Proof. intros N F. destruct F as [|x row -> F]; [congruence|]. reflexivity. Qed.
(** a user with nearly perfect accuracy is measured to be right at most half of the time *)
Lemma count_wrong : exists y b, queries 2 y /\ 1 / 100 <= b <= 150 /\ length y = 2%nat /\ 999 / 1000 < accuracy b y /\
  forall sm pf, sums b64 sm -> exists c, sampled_count_fl b64 sm b y pf = Ok c /\ c <= 1.
Proof.
  exists [[4; 0]; [-5; -4]], 150. assert (Q : queries 2 [[4; 0]; [-5; -4]]) by (split; [discriminate|split; [lia|intros r [<- |[<- |[]]]; reflexivity]]). split; [exact Q|]. split; [lra|]. split; [reflexivity|]. split.
  - eapply Rlt_le_trans; [|apply (accuracy_gap 2 150 1 _ Q); [lra|lra|]].
    + assert (K : exp (- (150 * 1)) <= / 2 ^ 150). { replace (150 * 1) with (INR 150) by (rewrite INR_IZR_INZ; cbn; lra). apply pow2_exp. }
      assert (K2 : / 2 ^ 150 <= / 2 ^ 10) by (apply Rinv_le_contravar; [apply pow_lt; lra|apply Rle_pow; [lra|lia]]). assert (P := exp_pos (- (150 * 1))). replace (/ 2 ^ 10) with (/ 1024) in K2 by (f_equal; ring). set (x := exp (- (150 * 1))) in *. cbn [INR]. replace (1 + (1 + 1 - 1) * x) with (1 + x) by ring. apply Rmult_lt_reg_r with (1 + x); [lra|]. rewrite Rinv_l by lra. lra.
    + intros r [<- |[<- |[]]]; [exists [], 4, [0]|exists [-5], (-4), []]; split; try reflexivity; intros v [<- |[]]; lra.
  - intros sm pf HS. assert (Z : sized [[4; 0]; [-5; -4]]) by (split; [discriminate|]; intros r [<- |[<- |[]]]; split; try discriminate; cbn; lia).
    destruct (rows_nan sm [[4; 0]; [-5; -4]] 150 1 [-5; -4] HS Z ltac:(lra) eq_refl) as [ps [out [E [Ho [Le F]]]]].
    { intros v [<- |[<- |[]]]; exists 4, 8%Z; (split; [now left|split; [lia|split; lra]]). }
    unfold sampled_count_fl. rewrite E. cbn [bind]. eexists. split; [reflexivity|]. assert (Lp : length ps = 2%nat). { unfold choice_rows_fl in E. destruct (np_max _); [|discriminate]. cbn [bind] in E. injection E as <-. reflexivity. }
    destruct ps as [|o1 [|o2 [|? ?]]]; try discriminate. injection Ho as ->. cbn [map]. rewrite (nan_max out) by (auto; intro; subst out; discriminate).
    destruct pf as [|u [|u' pf]]; cbn [combine map fst snd]; unfold num_true; cbn [map].
    + cbn. lra.
    + destruct (fleb _ _); cbn; lra.
    + assert (X : fleb (Fin u') NaN = false) by reflexivity. rewrite X. clear X. destruct pf; cbn [combine map]; destruct (fleb (Fin u) _); cbn; lra.
Qed.

(** ---- information gain ---- *)
Lemma div_zero F S : rd F 0 = 0 -> 0 < huge F -> fdiv F (Fin 0) S = Fin 0 \/ fdiv F (Fin 0) S = NaN.
Proof.
  intros R0 H. destruct S as [| | |y]; cbn; auto. destruct (Req_EM_T y 0); [right; apply inf_times_0|left]. unfold Rdiv. rewrite Rmult_0_l. unfold rnd. rewrite R0, (proj2 (Rleb_false (huge F) 0)), (proj2 (Rleb_false 0 (- huge F))) by lra. reflexivity.
Qed.
Lemma term_nan F M x s : rd F 0 = 0 -> 0 < huge F -> x = Fin 0 \/ x = NaN -> gain_term F M x s = NaN.
Proof.
  intros R0 H [-> | ->]; [|reflexivity]. unfold gain_term. cbn [fmul]. rewrite Rmult_0_r. assert (Z : rnd F 0 = Fin 0) by (unfold rnd; rewrite R0, (proj2 (Rleb_false (huge F) 0)), (proj2 (Rleb_false 0 (- huge F))) by lra; reflexivity). rewrite Z. destruct (div_zero F s R0 H) as [-> | ->]; [|reflexivity].
  cbn [flog2]. rewrite (proj2 (Rltb_false 0 0)) by lra. destruct (Req_EM_T 0 0); [|contradiction]. cbn. unfold ninf_times. rewrite !(proj2 (Rltb_false 0 0)) by lra. reflexivity.
Qed.
Lemma fadd_nan F a b : a = NaN \/ b = NaN -> fadd F a b = NaN.
Proof. intros [-> | ->]; [reflexivity|]. destruct a; reflexivity. Qed.
Lemma adds_nan F l a : adds F l a -> In NaN l -> a = NaN.
Proof.
  induction 1 as [x|l1 l2 l a b A1 IH1 A2 IH2 P]; intro H; [destruct H as [->|[]]; reflexivity|]. apply (Permutation_in _ P), in_app_or in H. apply fadd_nan. destruct H; [left|right]; auto.
Qed.
Lemma zipw_in {A B C} (f : A -> B -> C) l : forall m x, length l = length m -> In x l -> exists y, In (f x y) (zipw f l m).
Proof. induction l as [|a l IH]; intros [|b m] x L H; try discriminate; [destruct H|]. destruct H as [-> |H]; [exists b; now left|]. destruct (IH m x ltac:(cbn in L; congruence) H) as [y Hy]. exists y. now right. Qed.
Lemma gain_nan F sm M pk Q all_w r q mx : sums F sm -> rd F 0 = 0 -> 0 < huge F -> has_cols all_w Q -> In r all_w -> In q Q ->
  np_max (concat (map (sub_of Q) all_w)) = Ok mx -> fweight F pk mx (nth q r 0) = Fin 0 -> info_gain_fl F sm M pk Q all_w = Ok NaN.
Proof.
  intros HS R0 H HC Hr Hq E W. unfold info_gain_fl. rewrite take_cols_ok by auto. cbn [bind]. unfold choice_rows_fl. rewrite E. cbn [bind]. f_equal.
  match goal with |- fdiv F (sm ?l) _ = _ => assert (K : In NaN l) end.
  { apply in_concat. set (e := map (fweight F pk mx) (sub_of Q r)). set (row := map (fun v => fdiv F v (sm e)) e). 
    match goal with |- exists x, In x (map ?g ?p) /\ _ => assert (Hp : In row p) by (apply (in_map (fun row => map (fun v => fdiv F v (sm row)) row)); apply (in_map (map (fweight F pk mx))); apply in_map; exact Hr) end.
    eexists. split; [apply in_map; exact Hp|]. match goal with |- In NaN (zipw _ row ?ss) => assert (Ls : length row = length ss) by (unfold row, e, sub_of; rewrite !map_length, seq_length; reflexivity); destruct (zipw_in (gain_term F M) row ss (fdiv F (Fin 0) (sm e)) Ls) as [y Hy] end.
    - unfold row. apply (in_map (fun v => fdiv F v (sm e))). rewrite <- W. unfold e. apply in_map. unfold sub_of. apply (in_map (fun i => nth i r 0)). exact Hq.
    - rewrite term_nan in Hy; auto. destruct (div_zero F (sm e) R0 H); auto. }
  rewrite (adds_nan F _ _ (HS _ ltac:(intro X; rewrite X in K; destruct K)) K). reflexivity.
Qed.
Lemma gain_b64 sm M pk Q all_w r r' q q' z : sums b64 sm -> 0 < pk -> has_cols all_w Q -> In r all_w -> In r' all_w -> In q Q -> In q' Q ->
  (0 <= z <= 2 ^ 53)%Z -> nth q r 0 <= nth q' r' 0 - IZR z -> 1076 <= IZR z * pk -> info_gain_fl b64 sm M pk Q all_w = Ok NaN.
Proof.
  intros HS Hp HC Hr Hr' Hq Hq' Hz L Lz. assert (I : In (nth q' r' 0) (concat (map (sub_of Q) all_w))) by (apply in_concat; exists (sub_of Q r'); split; [now apply in_map|apply (in_map (fun i => nth i r' 0)), Hq']).
  destruct (np_max_ok (concat (map (sub_of Q) all_w))) as [mx [E [_ Mx]]]; [intro X; rewrite X in I; destruct I|]. apply (gain_nan b64 sm M pk Q all_w r q mx HS (rd_0 b64 b64_rounding) (huge_pos b64 b64_rounding) HC Hr Hq E). apply (weight_flush b64 pk mx _ z b64_rounding b64_flushes Hp Hz); auto. assert (K := Mx _ I). lra.
Qed.
(** a candidate whose gain is not a number is selected *)
Lemma first_nan_spec l : forall i, In NaN l -> exists j, first_nan i l = Some (i + j)%nat /\ nth_error l j = Some NaN.
Proof.
  induction l as [|x l IH]; intros i H; [destruct H|]. destruct x; [exists 0%nat; cbn; split; [f_equal; lia|reflexivity]| | |];
  (destruct H as [H|H]; [discriminate|]; destruct (IH (S i) H) as [j [E Hj]]; exists (S j); cbn; rewrite E; split; [f_equal; lia|exact Hj]).
Qed.
Lemma mapM_in {A B} (f : A -> result B) l m x y : mapM f l = Ok m -> In x l -> f x = Ok y -> In y m.
Proof.
  revert m. induction l as [|a l IH]; intros m E H Hy; [destruct H|]. cbn in E. destruct (f a) as [b|e] eqn:Ea; [|discriminate]. cbn in E. destruct (mapM f l) as [m'|e]; [|discriminate]. cbn in E. injection E as <-. destruct H as [-> |H]; [left; congruence|right; now apply IH].
Qed.
Lemma mapM_nth {A B} (f : A -> result B) l m i y : mapM f l = Ok m -> nth_error m i = Some y -> exists x, nth_error l i = Some x /\ f x = Ok y.
Proof.
  revert m i. induction l as [|a l IH]; intros m i E H; cbn in E; [injection E as <-; destruct i; discriminate|]. destruct (f a) as [b|e] eqn:Ea; [|discriminate]. cbn in E. destruct (mapM f l) as [m'|e]; [|discriminate]. cbn in E. injection E as <-. destruct i as [|i]; [injection H as <-; exists a; auto|]. apply (IH m' i eq_refl H).
Qed.
Lemma mapM_all {A B} (f : A -> result B) l : (forall x, In x l -> exists y, f x = Ok y) -> exists m, mapM f l = Ok m.
Proof. induction l as [|a l IH]; intro H; [now exists []|]. cbn. destruct (H a (or_introl eq_refl)) as [b ->]. cbn. destruct IH as [m ->]; [intros; apply H; now right|]. cbn. eauto. Qed.
Lemma gain_total F sm M pk Q all_w : Q <> [] -> all_w <> [] -> has_cols all_w Q -> exists v, info_gain_fl F sm M pk Q all_w = Ok v.
Proof.
  intros NQ NW HC. unfold info_gain_fl. rewrite take_cols_ok by auto. cbn [bind]. unfold choice_rows_fl. destruct (np_max_ok (concat (map (sub_of Q) all_w))) as [mx [-> _]]; [|cbn [bind]; eauto]. destruct all_w as [|r w]; [congruence|]. destruct Q; [congruence|discriminate].
Qed.
Lemma nan_selected F sm M pk all_w indicies prev j : all_w <> [] -> has_cols all_w (prev ++ indicies) -> In j indicies -> info_gain_fl F sm M pk (prev ++ [j]) all_w = Ok NaN ->
  exists i, mutual_greedy_fl F sm M pk all_w indicies prev = Ok (i, NaN) /\ In i indicies /\ info_gain_fl F sm M pk (prev ++ [i]) all_w = Ok NaN.
Proof.
  intros NW HC Hj E. unfold mutual_greedy_fl. destruct (mapM_all (fun idx => info_gain_fl F sm M pk (prev ++ [idx]) all_w) indicies) as [m Em].
  { intros x Hx. apply gain_total; auto; [destruct prev; discriminate|]. intros r i Hr Hi. apply HC; auto. apply in_or_app. apply in_app_or in Hi. destruct Hi as [Hi|[<- |[]]]; auto. }
  rewrite Em. cbn [bind]. assert (I := mapM_in _ _ _ _ _ Em Hj E). destruct (first_nan_spec m 0 I) as [k [Ek Hk]]. unfold argmax_fl. rewrite Ek. cbn [bind]. destruct (mapM_nth _ _ _ _ _ Em Hk) as [i [Hi Ei]]. exists i. unfold getitem. cbn [plus]. rewrite Hk. cbn [bind]. rewrite Hi. cbn [bind]. split; [reflexivity|]. split; [eapply nth_error_In; eauto|exact Ei].
Qed.
(** exact arithmetic selects the informative candidate, binary64 the one whose answer is known *)
Lemma known_selected : exists all_w prev informative known, has_cols all_w (prev ++ [known; informative]) /\
  calc_info_gain (length all_w) 10 (prev ++ [known]) all_w = Ok 0 /\ (exists g, 0 < g /\ mutual_greedy (length all_w) 10 all_w [known; informative] prev = Ok (informative, g)) /\
  forall sm, sums b64 sm -> mutual_greedy_fl b64 sm (length all_w) 10 all_w [known; informative] prev = Ok (known, NaN).
Proof.
  exists [[0; 1; 200]; [0; -1; 200]], [0%nat], 1%nat, 2%nat. set (w := [[0; 1; 200]; [0; -1; 200]]).
  assert (HC : has_cols w ([0%nat] ++ [2%nat; 1%nat])) by (intros r i [<- |[<- |[]]] [<- |[<- |[<- |[]]]]; cbn; lia). split; [exact HC|].
  assert (HK : has_cols w [0%nat; 2%nat]) by (intros r i [<- |[<- |[]]] [<- |[<- |[]]]; cbn; lia). assert (HI : has_cols w [0%nat; 1%nat]) by (intros r i [<- |[<- |[]]] [<- |[<- |[]]]; cbn; lia).
  assert (Z : calc_info_gain (length w) 10 ([0%nat] ++ [2%nat]) w = Ok 0) by (apply info_gain_zero; [lra|discriminate|discriminate|exact HK|]; intros r r' [<- |[<- |[]]] [<- |[<- |[]]]; intros i j a b a' b' [<- |[<- |[]]] [<- |[<- |[]]]; cbn; intros; repeat match goal with H : Some _ = Some _ |- _ => injection H as <- end; lra). split; [exact Z|]. split.
  - destruct (mutual_greedy_best 10 w [2%nat; 1%nat] [0%nat] ltac:(discriminate) ltac:(discriminate) HC) as [i [g [E [Hi [Eg Best]]]]]. assert (NZ : calc_info_gain (length w) 10 ([0%nat] ++ [1%nat]) w <> Ok 0).
    { intro X. assert (D : 10 <> 0) by lra. assert (Y := proj1 (info_gain_zero 10 [0%nat; 1%nat] w D ltac:(discriminate) ltac:(discriminate) HI) X). clear X. rename Y into X. specialize (X [0; 1; 200] [0; -1; 200] (or_introl eq_refl) (or_intror (or_introl eq_refl))). specialize (X 0%nat 1%nat 0 1 0 (-1) (or_introl eq_refl) (or_intror (or_introl eq_refl)) eq_refl eq_refl eq_refl eq_refl). lra. }
    destruct (info_gain_code 10 [0%nat; 1%nat] w ltac:(discriminate) ltac:(discriminate) HI) as [ps [_ [_ [_ [_ Ei]]]]]. destruct (info_gain_range 10 [0%nat; 1%nat] w _ ltac:(discriminate) ltac:(discriminate) HI Ei) as [G0 _]. set (g1 := gain _ ps) in *. change (calc_info_gain (length w) 10 ([0%nat] ++ [1%nat]) w = Ok g1) in Ei. clearbody g1.
    assert (K := Best 1%nat _ (or_intror (or_introl eq_refl)) Ei). rewrite Ei in NZ. destruct Hi as [<- |[<- |[]]].
    + exfalso. rewrite Z in Eg. injection Eg as <-. apply NZ. f_equal. lra.
    + exists g. split; [|exact E]. rewrite Ei in Eg. injection Eg as <-. destruct G0 as [G0|G0]; [exact G0|]. exfalso. apply NZ. now rewrite <- G0.
  - intros sm HS. assert (N2 : info_gain_fl b64 sm (length w) 10 ([0%nat] ++ [2%nat]) w = Ok NaN) by (apply (gain_b64 sm (length w) 10 [0%nat; 2%nat] w [0; 1; 200] [0; 1; 200] 0 2 200 HS); auto; try lra; try (now left); try (right; now left); [lia|cbn; lra]).
    unfold mutual_greedy_fl. cbn [mapM]. rewrite N2. cbn [bind]. destruct (gain_total b64 sm (length w) 10 ([0%nat] ++ [1%nat]) w ltac:(discriminate) ltac:(discriminate) HI) as [v ->]. reflexivity.
Qed.
