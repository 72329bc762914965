(** Lemmas for the information gained by a rating. *)
From Coquelicot Require Import Coquelicot.
From Coq Require Import Reals Lra Lia List Arith Bool.
From Verif Require Import M_RBase M_Select M_Info M_Hyper M_Normal M_AbsProbit M_Beta M_AbsInfo S_AbsProbit S_Gamma S_AbsInfo P_RBase P_Gamma P_Gamma2 P_Gamma3 P_Normal P_AbsProbit P_AbsAcq P_Acq S_PBest P_PBest S_User P_User S_Psd P_Psd.
Import ListNotations.
Local Open Scope R_scope.

(** the total of the density above [m] *)
Lemma cut_total a b m c : 0 < a -> 0 < b -> 0 < m < 1 -> total (fun t => if Rltb m t then c * dens a b t else 0) (c * (1 - beta_cdf true_special m a b)).
Proof.
  intros Ha Hb Hm. destruct (cdf_inside a b Ha Hb) as [C1 [C2 [_ C4]]]. set (h := fun t => if Rltb m t then c * dens a b t else 0).
  assert (I : forall u v, 0 < u < m -> m < v < 1 -> is_RInt h u v (c * (beta_cdf true_special v a b - beta_cdf true_special m a b))).
  { intros u v Hu Hv. replace (c * (beta_cdf true_special v a b - beta_cdf true_special m a b)) with (plus 0 (c * (beta_cdf true_special v a b - beta_cdf true_special m a b))) by (unfold plus; cbn; ring).
    apply (is_RInt_Chasles h u m v).
    - apply (is_RInt_ext (fun _ => 0)); [|].
      + intros x Hx. rewrite Rmin_left, Rmax_right in Hx by lra. unfold h, Rltb. destruct (Rlt_dec m x); [lra|reflexivity].
      + assert (Z := is_RInt_const (V := R_NormedModule) u m 0). unfold scal in Z; cbn in Z; unfold mult in Z; cbn in Z. rewrite Rmult_0_r in Z. exact Z.
    - apply (is_RInt_ext (fun t => c * dens a b t)).
      + intros x Hx. rewrite Rmin_left, Rmax_right in Hx by lra. unfold h, Rltb. destruct (Rlt_dec m x); [reflexivity|lra].
      + apply (is_RInt_scal (V := R_NormedModule) (dens a b) m v c). rewrite (C1 m v Hm ltac:(lra)). apply (RInt_correct (V := R_CompleteNormedModule)). apply (ex_RInt_continuous (V := R_CompleteNormedModule)). intros x Hx. rewrite Rmin_left, Rmax_right in Hx by lra. apply dens_cont. lra. }
  intros P [e He]. destruct (Req_dec c 0) as [Z|Z].
  - apply (Filter_prod _ _ _ (fun u => 0 < u < m) (fun v => m < v < 1)).
    + exists (mkposreal m (proj1 Hm)). intros y By Hy. apply Rabs_lt_between in By. cbn in *. unfold minus, plus, opp in By; cbn in By. lra.
    + assert (D : 0 < 1 - m) by lra. exists (mkposreal _ D). intros y By Hy. apply Rabs_lt_between in By. unfold minus, plus, opp in By; cbn in By. lra.
    + intros u v Hu Hv. eexists. split; [apply (I u v Hu Hv)|]. apply He. rewrite Z, !Rmult_0_l. apply ball_center.
  - assert (E0 : 0 < pos e / Rabs c) by (apply Rdiv_lt_0_compat; [apply cond_pos|now apply Rabs_pos_lt]). destruct (C4 _ E0) as [d [Pd [_ H]]].
    apply (Filter_prod _ _ _ (fun u => 0 < u < m) (fun v => Rmax m (1 - d) < v < 1)).
    + exists (mkposreal m (proj1 Hm)). intros y By Hy. apply Rabs_lt_between in By. cbn in *. unfold minus, plus, opp in By; cbn in By. lra.
    + assert (D : 0 < 1 - Rmax m (1 - d)) by (assert (Rmax m (1 - d) < 1) by (apply Rmax_lub_lt; lra); lra). exists (mkposreal _ D). intros y By Hy. apply Rabs_lt_between in By. unfold minus, plus, opp in By; cbn in By. lra.
    + intros u v Hu Hv. assert (R1 := Rmax_l m (1 - d)). assert (R2 := Rmax_r m (1 - d)). eexists. split; [apply (I u v Hu ltac:(lra))|]. apply He.
      change (Rabs (c * (beta_cdf true_special v a b - beta_cdf true_special m a b) - c * (1 - beta_cdf true_special m a b)) < e).
      replace (c * (beta_cdf true_special v a b - beta_cdf true_special m a b) - c * (1 - beta_cdf true_special m a b)) with (c * (beta_cdf true_special v a b - 1)) by ring. rewrite Rabs_mult.
      assert (V := C2 v ltac:(lra)). specialize (H v ltac:(lra)). rewrite (Rabs_left (beta_cdf true_special v a b - 1)) by lra. assert (0 < Rabs c) by now apply Rabs_pos_lt. replace (pos e) with (Rabs c * (pos e / Rabs c)) by (field; lra). apply Rmult_lt_compat_l; lra.
Qed.
Lemma sumn_less n f g : (0 < n)%nat -> (forall c, (c < n)%nat -> f c < g c) -> sumn n f < sumn n g.
Proof. intros Hn H. apply P_PBest.sumn_lt; [intros c Hc; left; auto|exists O; auto]. Qed.
Section Gain.
Variables (a : abs_probit) (eps : R) (integ : (R -> R) -> R).
Hypotheses (Hv : 0 < a_v a) (He : 0 < eps < 1 / 2) (HI : exact_total integ).
Lemma above_range f g : 0 < rated_above a eps f g < 1.
Proof.
  destruct (beta_params a eps f Hv He) as [A [B _]]. destruct (cdf_inside _ _ A B) as [_ [C _]]. assert (L := mean_link_range a eps g He). unfold rated_above, abs_cdf. specialize (C (mean_link a eps g) ltac:(lra)). lra.
Qed.
Lemma unorm_total f g : integ (p_q_f_B_unorm true_special (alpha a eps f) (beta a eps f) (mean_link a eps g)) = rated_above a eps f g.
Proof.
  destruct (beta_params a eps f Hv He) as [A [B _]]. assert (L := mean_link_range a eps g He). apply HI. assert (T := cut_total _ _ (mean_link a eps g) 1 A B ltac:(lra)). rewrite Rmult_1_l in T. unfold rated_above, abs_cdf.
  eapply is_RInt_gen_ext; [|exact T]. apply filter_forall. intros [u v] x _. cbv beta. unfold p_q_f_B_unorm, dens. destruct (Rltb (mean_link a eps g) x); [apply Rmult_1_l|reflexivity].
Qed.
Lemma info_total pb f g : 0 < pb -> integ (info_integrand true_special pb (alpha a eps f) (beta a eps f) (mean_link a eps g) (rated_above a eps f g)) = ln pb - ln (rated_above a eps f g).
Proof.
  intro Hp. destruct (beta_params a eps f Hv He) as [A [B _]]. assert (L := mean_link_range a eps g He). assert (Z := above_range f g). set (z := rated_above a eps f g) in *. apply HI.
  assert (T := cut_total _ _ (mean_link a eps g) (/ z * (ln pb - ln z)) A B ltac:(lra)). change (1 - beta_cdf true_special (mean_link a eps g) (alpha a eps f) (beta a eps f)) with z in T. replace (/ z * (ln pb - ln z) * z) with (ln pb - ln z) in T by (field; lra).
  eapply is_RInt_gen_ext; [|exact T]. apply filter_forall. intros [u v] x _. cbv beta. unfold info_integrand, p_q_f_B_unorm. fold (dens (alpha a eps f) (beta a eps f) x). assert (D := dens_pos (alpha a eps f) (beta a eps f) x). set (d := dens _ _ x) in *.
  destruct (Rltb (mean_link a eps g) x).
  - destruct (Req_EM_T (d / z) 0) as [E|_]; [exfalso; assert (0 < d / z) by (apply Rdiv_lt_0_compat; lra); lra|]. replace (d / z * pb / d) with (pb / z) by (field; lra). rewrite ln_div by lra. match goal with |- @eq _ ?p ?q => change (@eq R p q) end. field. lra.
  - destruct (Req_EM_T (0 / z) 0) as [_|E]; [reflexivity|]. exfalso. apply E. field. lra.
Qed.
Lemma rsum_sumn n (g : nat -> R) : rsum (map g (seq 0 n)) = sumn n g.
Proof. induction n as [|n IH]; [reflexivity|]. rewrite seq_S, map_app, rsum_app, IH. cbn. ring. Qed.
Lemma over_total M p_b all_f c B : (0 < M)%nat -> 0 < chance_of p_b B -> over_samples integ true_special a eps M p_b all_f c B =
  ln (chance_of p_b B) + sumn M (fun k => - ln (rated_above a eps (all_f k c) (all_f k B))) / INR M.
Proof.
  intros HM Hp. unfold over_samples. rewrite rsum_sumn. assert (0 < INR M) by (apply (lt_INR 0); lia).
  rewrite (sumn_ext M _ (fun k => ln (chance_of p_b B) + - ln (rated_above a eps (all_f k c) (all_f k B)))).
  2:{ intros k _. cbv beta zeta. rewrite unorm_total, info_total by exact Hp. ring. }
  rewrite sumn_plus. replace (sumn M (fun _ => ln (chance_of p_b B))) with (INR M * ln (chance_of p_b B)). { field. lra. }
  clear. induction M; cbn [sumn]; [cbn; ring|]. rewrite <- IHM, S_INR. ring.
Qed.
Lemma chance_nth p_b B : (B < length p_b)%nat -> chance_of p_b B = nth B p_b 0.
Proof. destruct p_b as [|p [|q l]]; cbn [length]; intro H; try lia; [|reflexivity]. now replace B with O by lia. Qed.
Lemma no_zero p_b : (forall p, In p p_b -> 0 < p) -> existsb (fun p => if Req_EM_T p 0 then true else false) p_b = false.
Proof.
  intro H. induction p_b as [|p l IH]; [reflexivity|]. cbn. rewrite IH by (intros; apply H; now right). destruct (Req_EM_T p 0) as [E|_]; [|reflexivity]. specialize (H p (or_introl eq_refl)). lra.
Qed.
Lemma map_nth_seq (g : R -> R) l : map g l = map (fun i => g (nth i l 0)) (seq 0 (length l)).
Proof. induction l as [|x l IH]; [reflexivity|]. cbn [length seq map nth]. f_equal. rewrite <- seq_shift, map_map. exact IH. Qed.
Lemma gain_surprise M p_b all_f c : (0 < M)%nat -> (forall p, In p p_b -> 0 < p) ->
  abs_info_gain integ true_special a eps M (length p_b) p_b all_f c = Some (mean_surprise a eps M (length p_b) (fun B => nth B p_b 0) all_f c).
Proof.
  intros HM Hp. unfold abs_info_gain. rewrite no_zero by exact Hp. f_equal. rewrite (map_nth_seq (fun p => - p * ln p) p_b), !rsum_sumn. unfold mean_surprise.
  rewrite (sumn_ext (length p_b) (fun B => - chance_of p_b B * over_samples integ true_special a eps M p_b all_f c B)
    (fun B => -1 * (nth B p_b 0 * (sumn M (fun k => - ln (rated_above a eps (all_f k c) (all_f k B))) / INR M)) + - nth B p_b 0 * ln (nth B p_b 0))).
  2:{ intros B HB. assert (P : 0 < nth B p_b 0) by (apply Hp, nth_In; lia). rewrite over_total by (rewrite ?chance_nth; auto). rewrite chance_nth by exact HB. ring. }
  rewrite sumn_plus, sumn_scale. ring.
Qed.
Lemma surprise_pos M N p all_f c : (0 < M)%nat -> (0 < N)%nat -> (forall B, (B < N)%nat -> 0 < p B) -> 0 < mean_surprise a eps M N p all_f c.
Proof.
  intros HM HN Hp. unfold mean_surprise. assert (PM : 0 < INR M) by (apply (lt_INR 0); lia).
  assert (T : forall B, 0 < sumn M (fun k => - ln (rated_above a eps (all_f k c) (all_f k B))) / INR M).
  { intro B. apply Rdiv_lt_0_compat; [|exact PM]. apply sumn_pos; [exact HM|]. intros k _. assert (L := above_range (all_f k c) (all_f k B)). assert (ln (rated_above a eps (all_f k c) (all_f k B)) < ln 1) by (apply ln_increasing; lra). rewrite ln_1 in *. lra. }
  apply sumn_pos; [exact HN|]. intros B HB. apply Rmult_lt_0_compat; auto.
Qed.
Lemma above_mono f f' g : 0 < a_sigma a -> f <= f' -> rated_above a eps f g <= rated_above a eps f' g.
Proof. intros Hs H. unfold rated_above. assert (L := rating_dominance a eps f f' (mean_link a eps g) Hv Hs He H). lra. Qed.
Lemma above_strict f f' g : 0 < a_sigma a -> f < f' -> free eps (a_sigma a) f -> free eps (a_sigma a) f' -> rated_above a eps f g < rated_above a eps f' g.
Proof. intros Hs H F F'. unfold rated_above. assert (R := mean_link_range a eps g He). assert (L := rating_dominance_strict a eps f f' (mean_link a eps g) Hv Hs He H F F' ltac:(lra)). lra. Qed.
Lemma surprise_mono M N p all_f c c' : 0 < a_sigma a -> (0 < M)%nat -> (forall B, (B < N)%nat -> 0 <= p B) -> (forall k, (k < M)%nat -> all_f k c <= all_f k c') ->
  mean_surprise a eps M N p all_f c' <= mean_surprise a eps M N p all_f c.
Proof.
  intros Hs HM Hp H. assert (PM : 0 < INR M) by (apply (lt_INR 0); lia). apply sumn_le. intros B HB. apply Rmult_le_compat_l; [auto|]. apply Rmult_le_compat_r; [left; now apply Rinv_0_lt_compat|]. apply sumn_le. intros k Hk. apply Ropp_le_contravar.
  assert (L := above_range (all_f k c) (all_f k B)). apply ln_le; [lra|]. apply above_mono; auto.
Qed.
Lemma surprise_strict M N p all_f c c' : 0 < a_sigma a -> (0 < M)%nat -> (0 < N)%nat -> (forall B, (B < N)%nat -> 0 < p B) -> (forall k, (k < M)%nat -> all_f k c < all_f k c') ->
  (forall k, (k < M)%nat -> free eps (a_sigma a) (all_f k c) /\ free eps (a_sigma a) (all_f k c')) -> mean_surprise a eps M N p all_f c' < mean_surprise a eps M N p all_f c.
Proof.
  intros Hs HM HN Hp H F. assert (PM : 0 < INR M) by (apply (lt_INR 0); lia). apply sumn_less; [exact HN|]. intros B HB. apply Rmult_lt_compat_l; [auto|]. apply Rmult_lt_compat_r; [now apply Rinv_0_lt_compat|]. apply sumn_less; [exact HM|]. intros k Hk. apply Ropp_lt_contravar.
  assert (L := above_range (all_f k c) (all_f k B)). apply ln_increasing; [lra|]. destruct (F k Hk). apply above_strict; auto.
Qed.
(** ---- the selection ---- *)
Lemma nan_argmax_from l : forall best besti i, argmax_from nan_ltb (Some best) besti i (map Some l) = argmax_from Rltb best besti i l.
Proof. induction l as [|x l IH]; intros best besti i; [reflexivity|]. cbn. destruct (Rltb best x); apply IH. Qed.
Lemma nan_argmax l : argmax nan_ltb (map Some l) = argmax Rltb l.
Proof. destruct l as [|x l]; [reflexivity|]. cbn. now rewrite nan_argmax_from. Qed.
Lemma nan_argmax_none n : (0 < n)%nat -> argmax nan_ltb (map (fun _ : nat => None) (seq 0 n)) = Ok O.
Proof.
  intro H. destruct n; [lia|]. cbn. f_equal. assert (G : forall l i, argmax_from nan_ltb None 0 i (map (fun _ : nat => None) l) = 0%nat) by (induction l as [|x l IH]; intro i; [reflexivity|cbn; apply IH]). apply G.
Qed.
Lemma select_surprise M p_b all_f indicies d : (0 < M)%nat -> indicies <> [] -> length p_b = length indicies -> (forall p, In p p_b -> 0 < p) ->
  let score := mean_surprise a eps M (length p_b) (fun B => nth B p_b 0) all_f in
  exists c, (c < length indicies)%nat /\ abs_info_select true integ true_special a eps M (length p_b) true p_b all_f indicies d = Ok (nth c indicies O, Some (score c)) /\
    (forall c', (c' < length indicies)%nat -> score c' <= score c) /\ forall c', (c' < c)%nat -> score c' < score c.
Proof.
  intros HM Hi HL Hp score. unfold abs_info_select. cbn [negb]. rewrite Nat.eqb_refl. cbn [orb negb]. cbv zeta.
  assert (E : map (abs_info_gain integ true_special a eps M (length p_b) p_b all_f) (seq 0 (length p_b)) = map Some (map score (seq 0 (length p_b)))) by (rewrite map_map; apply map_ext; intro c; apply gain_surprise; auto).
  rewrite E, nan_argmax. assert (L0 : (0 < length indicies)%nat) by (destruct indicies; [congruence|cbn; lia]).
  destruct (argmax_first (map score (seq 0 (length p_b)))) as [c [A [w [C1 [C2 C3]]]]]; [rewrite HL; destruct (length indicies); [lia|discriminate]|].
  assert (V : forall c', (c' < length p_b)%nat -> nth c' (map score (seq 0 (length p_b))) 0 = score c').
  { intros c' Hc. rewrite (nth_indep _ 0 (score O)) by (rewrite map_length, seq_length; exact Hc). rewrite map_nth, seq_nth by exact Hc. reflexivity. }
  assert (K : (c < length p_b)%nat) by (assert (D : nth_error (map score (seq 0 (length p_b))) c <> None) by (rewrite C1; discriminate); apply nth_error_Some in D; now rewrite map_length, seq_length in D). assert (S1 : forall c', (c' < length p_b)%nat -> nth_error (map score (seq 0 (length p_b))) c' = Some (score c')) by (intros c' Hc; rewrite (nth_error_nth' _ 0) by (rewrite map_length, seq_length; exact Hc); now rewrite V).
  assert (W := S1 c K). rewrite C1 in W. injection W as W. exists c. split; [lia|]. rewrite A. cbn [bind]. unfold getitem at 1. rewrite (nth_error_nth' _ (Some 0)) by (rewrite !map_length, seq_length; exact K). rewrite map_nth, V by exact K. cbn [bind]. unfold getitem. rewrite (nth_error_nth' indicies O) by lia. cbn [bind]. split; [reflexivity|].
  split; intros c' Hc.
  - rewrite <- W. apply (C2 c'). apply S1. lia.
  - rewrite <- W. apply (C3 c'); [exact Hc|]. apply S1. lia.
Qed.
(** one given candidate among [N]: its chance stands for all *)
Lemma gain_single M N p all_f c : (0 < M)%nat -> 0 < p -> abs_info_gain integ true_special a eps M N [p] all_f c = Some ((INR N - 1) * (p * ln p) + mean_surprise a eps M N (fun _ => p) all_f c).
Proof.
  intros HM Hp. unfold abs_info_gain. rewrite no_zero by (intros q [<-|[]]; exact Hp). f_equal. cbn [map rsum]. rewrite rsum_sumn. unfold mean_surprise.
  rewrite (sumn_ext N (fun B => - chance_of [p] B * over_samples integ true_special a eps M [p] all_f c B) (fun B => -1 * (p * (sumn M (fun k => - ln (rated_above a eps (all_f k c) (all_f k B))) / INR M)) + - p * ln p)).
  2:{ intros B HB. rewrite over_total by (cbn; auto). cbn [chance_of]. ring. }
  rewrite sumn_plus, sumn_scale. replace (sumn N (fun _ => - p * ln p)) with (INR N * (- p * ln p)); [ring|]. clear. induction N; cbn [sumn]; [cbn; ring|]. rewrite <- IHN, S_INR. ring.
Qed.
Lemma select_single M N p all_f i d w : 0 < a_sigma a -> (0 < M)%nat -> 0 < p -> (0 < w < N)%nat -> (forall k c, (k < M)%nat -> (c < N)%nat -> free eps (a_sigma a) (all_f k c) /\ (c <> w -> all_f k w < all_f k c)) ->
  abs_info_select true integ true_special a eps M N true [p] all_f [i] d = Raise IndexError.
Proof.
  intros Hs HM Hp Hw H. unfold abs_info_select. cbn [negb length]. cbn [Nat.eqb]. rewrite Bool.orb_true_r. cbn [negb]. cbv zeta. set (score := fun c => (INR N - 1) * (p * ln p) + mean_surprise a eps M N (fun _ => p) all_f c).
  assert (E : map (abs_info_gain integ true_special a eps M N [p] all_f) (seq 0 N) = map Some (map score (seq 0 N))) by (rewrite map_map; apply map_ext; intro c; apply gain_single; auto). rewrite E, nan_argmax.
  destruct (argmax_first (map score (seq 0 N))) as [c [A [v [C1 [C2 C3]]]]]; [destruct N; [lia|discriminate]|].
  assert (S1 : forall c', (c' < N)%nat -> nth_error (map score (seq 0 N)) c' = Some (score c')). { intros c' Hc. rewrite nth_error_map, (nth_error_nth' _ O) by (rewrite seq_length; exact Hc). rewrite seq_nth by exact Hc. reflexivity. }
  assert (K : (c < N)%nat) by (assert (D : nth_error (map score (seq 0 N)) c <> None) by (rewrite C1; discriminate); apply nth_error_Some in D; now rewrite map_length, seq_length in D).
  assert (W := S1 c K). rewrite C1 in W. injection W as W. assert (c = w).
  { destruct (Nat.eq_dec c w) as [e|n]; [exact e|exfalso]. assert (S := surprise_strict M N (fun _ => p) all_f w c Hs HM ltac:(lia) ltac:(auto) ltac:(intros k Hk; now apply H) ltac:(intros k Hk; split; apply H; lia)). assert (C := C2 w _ (S1 w ltac:(lia))). rewrite W in C. unfold score in C. lra. }
  subst c. rewrite A. cbn [bind]. unfold getitem at 1. rewrite nth_error_map, C1. cbn [bind option_map]. unfold getitem. destruct w as [|w]; [lia|]. destruct w; reflexivity.
Qed.
End Gain.
Lemma select_worst a eps integ M p_b all_f indicies d w : 0 < a_v a -> 0 < a_sigma a -> 0 < eps < 1 / 2 -> exact_total integ -> (0 < M)%nat -> length p_b = length indicies -> (forall p, In p p_b -> 0 < p) ->
  (w < length indicies)%nat -> (forall k c, (k < M)%nat -> (c < length indicies)%nat -> free eps (a_sigma a) (all_f k c) /\ (c <> w -> all_f k w < all_f k c)) ->
  exists v, abs_info_select true integ true_special a eps M (length p_b) true p_b all_f indicies d = Ok (nth w indicies O, Some v).
Proof.
  intros Hv Hs He HI HM HL Hp Hw H. destruct (select_surprise a eps integ Hv He HI M p_b all_f indicies d HM ltac:(destruct indicies; [cbn in Hw; lia|discriminate]) HL Hp) as [c [Hc [E [C1 _]]]].
  destruct (Nat.eq_dec c w) as [-> |Hn]; [eexists; exact E|exfalso]. specialize (C1 w Hw). assert (S := surprise_strict a eps Hv He M (length p_b) (fun B => nth B p_b 0) all_f w c Hs HM ltac:(lia)).
  assert (S' := S ltac:(intros B HB; apply Hp, nth_In, HB) ltac:(intros k Hk; now apply H) ltac:(intros k Hk; split; now apply H)). lra.
Qed.
Lemma select_nan a eps integ sp M N p_b all_f indicies d : In 0 p_b -> indicies <> [] -> length p_b = N \/ length p_b = 1%nat -> (0 < N)%nat ->
  abs_info_select true integ sp a eps M N true p_b all_f indicies d = Ok (nth 0 indicies O, None).
Proof.
  intros H0 Hi HL HN. unfold abs_info_select. cbn [negb].
  assert (E : Nat.eqb (length p_b) N || Nat.eqb (length p_b) 1 = true) by (apply orb_true_iff; destruct HL; [left|right]; now apply Nat.eqb_eq). rewrite E. cbn [negb]. cbv zeta.
  assert (X : existsb (fun p => if Req_EM_T p 0 then true else false) p_b = true) by (apply existsb_exists; exists 0; split; [exact H0|]; destruct (Req_EM_T 0 0); congruence).
  rewrite (map_ext (abs_info_gain integ sp a eps M N p_b all_f) (fun _ => None)) by (intro c; unfold abs_info_gain; now rewrite X).
  rewrite nan_argmax_none by exact HN. cbn [bind]. destruct N; [lia|]. destruct indicies; [congruence|]. reflexivity.
Qed.
Lemma select_subset continues a eps integ sp M N pB p_b all_f indicies d : pB (length indicies) = Ok p_b -> length p_b = length indicies -> (2 <= length indicies < N)%nat ->
  exists e, abs_info_gp continues integ sp a eps M N pB all_f indicies d = Raise e.
Proof.
  intros HB HL HN. unfold abs_info_gp. rewrite HB. cbn [bind]. unfold abs_info_select. cbn [negb]. destruct continues; cbn [negb]; [|eexists; reflexivity]. replace (Nat.eqb (length p_b) N) with false by (symmetry; apply Nat.eqb_neq; lia). replace (Nat.eqb (length p_b) 1) with false by (symmetry; apply Nat.eqb_neq; lia). eexists; reflexivity.
Qed.
Lemma select_info_random continues a eps integ sp M N p_b all_f indicies d : indicies <> [] -> exists i, In i indicies /\ abs_info_select continues integ sp a eps M N false p_b all_f indicies d = Ok (i, None).
Proof.
  intro Hi. assert (L : (0 < length indicies)%nat) by (destruct indicies; [congruence|cbn; lia]). assert (B : (d mod length indicies < length indicies)%nat) by (apply Nat.mod_upper_bound; lia). exists (nth (d mod length indicies) indicies O). split; [now apply nth_In|]. unfold abs_info_select. cbn [negb]. destruct indicies as [|z zs] eqn:E; [congruence|]. rewrite <- E in *. unfold getitem. rewrite (nth_error_nth' indicies O) by exact B. reflexivity.
Qed.
Lemma select_linear_nan a eps integ sp M dim pts ws i j p all_f indicies d : (forall x, In x pts -> length x = dim) -> (forall w, In w ws -> length w = dim) -> ws <> [] -> (i < length pts)%nat -> (j < length pts)%nat ->
  (forall w, In w ws -> reward dim (nth i pts []) w < reward dim (nth j pts []) w) -> M_PBest.p_B_pref_linear pts ws = Ok p -> indicies <> [] ->
  abs_info_select true integ sp a eps M (length pts) true p all_f indicies d = Ok (nth 0 indicies O, None).
Proof.
  intros H1 H2 H3 Hi Hj H HP Hn. assert (HL : length p = length pts) by (destruct (P_PBest.linear_chances dim pts ws H1 H2 ltac:(destruct pts; [cbn in Hi; lia|discriminate]) H3) as [p' [E' [[HL _] _]]]; rewrite HP in E'; injection E' as <-; exact HL). apply select_nan; auto; [|lia]. rewrite <- (P_PBest.linear_never dim pts ws i j p H1 H2 H3 Hi Hj H HP). apply nth_In. lia.
Qed.
Lemma improper_exact : exact_total improper.
Proof.
  intros g l H. exact (@is_RInt_gen_unique R_CompleteNormedModule (at_right 0) (at_left 1) (Proper_StrongProper _ (at_right_proper_filter 0)) (Proper_StrongProper _ (at_left_proper_filter 1)) g l H).
Qed.
Lemma free_above eps : 0 < eps <= 1 / 4 -> free eps 1 0 /\ exists x, 0 < x /\ free eps 1 x.
Proof.
  intro He. assert (S2 : 0 < sqrt 2) by (apply sqrt_lt_R0; lra). split.
  - unfold free, mean_rating. replace (0 / (1 * sqrt 2)) with 0 by (field; lra). rewrite ndtr_0. split; lra.
  - assert (C : continuity_pt ndtr 0) by (apply continuity_pt_filterlim; apply (ex_derive_continuous (V := R_NormedModule) ndtr 0); eexists; apply ndtr_derive).
    destruct (C (1 / 8) ltac:(lra)) as [d [Pd H]]. set (z := Rmin 1 (d / 2)). assert (Z : 0 < z <= 1 /\ z < d) by (unfold z; assert (L := Rmin_l 1 (d / 2)); assert (L' := Rmin_r 1 (d / 2)); assert (0 < Rmin 1 (d / 2)) by (apply Rmin_pos; lra); lra).
    exists (z * sqrt 2). split; [nra|]. unfold free, mean_rating. replace (z * sqrt 2 / (1 * sqrt 2)) with z by (field; lra). assert (I := ndtr_increasing 0 z ltac:(lra)). rewrite ndtr_0 in I.
    assert (D := H z). cbn in D. unfold R_dist in D. rewrite ndtr_0 in D. specialize (D ltac:(split; [split; [exact Logic.I|lra]|rewrite Rminus_0_r, Rabs_pos_eq; lra])). apply Rabs_def2 in D. split; lra.
Qed.
Lemma select_one_point a eps integ M N pB p all_f i d w : 0 < a_v a -> 0 < a_sigma a -> 0 < eps < 1 / 2 -> exact_total integ -> (0 < M)%nat -> pB 1%nat = Ok [p] -> 0 < p -> (0 < w < N)%nat ->
  (forall k c, (k < M)%nat -> (c < N)%nat -> free eps (a_sigma a) (all_f k c) /\ (c <> w -> all_f k w < all_f k c)) ->
  abs_info_gp true integ true_special a eps M N pB all_f [i] d = Raise IndexError.
Proof. intros Hv Hs He HI HM HP Hp Hw H. unfold abs_info_gp. cbn [length]. rewrite HP. cbn [bind]. now apply (select_single a eps integ Hv He HI M N p all_f i d w). Qed.
