(** The mode: the fixed point of the update, likelihood, repeated comparisons. *)
From Coquelicot Require Import Coquelicot.
From Coq Require Import Reals Lra Lia List.
From Verif Require Import M_RBase M_Normal M_PrefProbit M_OrdProbit M_AbsProbit M_Acq M_GP M_Search M_Fit S_PrefProbit S_OrdProbit S_AbsProbit S_GP S_Fit S_Mode P_RBase P_Acq P_Normal P_PrefProbit P_Put P_OrdProbit P_AbsProbit P_Chol P_GP P_GP3 P_Fit P_Fit2 P_Fit3 P_Fit4 P_Fit5 P_Mode P_Mode2 P_Mode3 P_Mode4.
From Verif Require Import S_Psd P_Psd.
Local Open Scope R_scope.

Lemma mode_likelihood sp P n r K B : good_probits sp P -> well_formed n r -> symmetric n K -> pd n K -> right_inverse n K B -> forall F, mode sp P (only r) n B F ->
  qform n B F - INR (length r) * ln 2 <= LLp (p_sigma (ps_p P)) r F.
Proof.
  intros GP WF SK PK IB F M. assert (T := mode_better sp P n (only r) K B GP (only_good P n r WF) (only_discrete P r) SK PK IB F M). rewrite LL_only_zero in T by apply GP. rewrite lin_LLp in T. lra.
Qed.
Lemma mode_repeated sp P n p m K B : 0 < p_sigma (ps_p P) -> well_formed n (p :: nil) -> proper p -> symmetric n K -> pd n K -> right_inverse n K B ->
  forall F, mode sp P (only (repeat p (S m))) n B F -> agrees F p.
Proof.
  intros S WF D SK PK IB F M. assert (WF' : well_formed n (repeat p (Datatypes.S m))) by (intros q Hq; apply repeat_spec in Hq; subst; apply WF; now left).
  apply (mode_supporting sp P n _ K B S WF' SK PK IB F M); auto; [|now left]. intros a b Ha Hb. apply repeat_spec in Ha, Hb. subst. left. apply (cov_pos n K PK p WF D).
Qed.
Lemma mode_fixed_point sp P n r K L B inv : good_probits sp P -> 0 < p_sigma (ps_p P) -> well_formed n r -> symmetric n K -> chol n K = Some L -> right_inverse n K B -> inverts_all inv ->
  (forall p, In p r -> INR (length r) * margin_cov K p p < 1800 * p_sigma (ps_p P) ^ 2) ->
  exists F, length F = n /\ mode_step sp P (only r) n L inv F = Ok F /\ mode sp P (only r) n B (entries F) /\
    forall G, length G = n -> unclipped (p_sigma (ps_p P)) r (entries G) -> mode_step sp P (only r) n L inv G = Ok G -> G = F.
Proof.
  intros GP S WF SK EL IB HI HC. assert (PK := chol_pd n K L SK EL). assert (GL := only_good P n r WF). assert (DY := only_discrete P r).
  destruct (mode_exists sp P n (only r) K B GP GL DY SK PK IB) as [F0 M0]. set (F := map F0 (seq 0 n)). assert (LF : length F = n) by (unfold F; now rewrite map_length, seq_length).
  assert (M : mode sp P (only r) n B (entries F)). { apply (mode_ext sp P n (only r) B GL DY F0); auto. intros i Hi. unfold F. now rewrite entries_map. }
  assert (U := mode_unclipped sp P n r K B GP S WF SK PK IB (entries F) M HC). exists F. split; auto. split; [apply (mode_standstill sp P n r K L B inv F); auto|]. split; auto.
  intros G LG UG EG. apply (mode_standstill sp P n r K L B inv G GP WF SK EL IB HI LG UG) in EG. assert (E := mode_only sp P n (only r) K B GP GL DY SK PK IB _ _ EG M).
  apply (nth_ext G F 0 0); [congruence|]. intros i Hi. rewrite LG in Hi. exact (E i Hi).
Qed.

(** ---- a mode exists also with ratings ---- *)
Section Ratings.
Variables (sp : special) (v : R).
Hypotheses (GF : gamma_facts sp) (V : 0 < v).
Lemma psi_incr x y : 0 < x -> x <= y -> psi sp x <= psi sp y.
Proof.
  intros Hx [L| ->]; [|lra]. destruct (MVT_gen (psi sp) x y (psi1 sp)) as [c [Hc E]].
  - intros z Hz. rewrite Rmin_left, Rmax_right in Hz by lra. apply GF. lra.
  - intros z Hz. rewrite Rmin_left, Rmax_right in Hz by lra. eapply cont_pt_derive. apply (gf_psi1 sp GF). lra.
  - rewrite Rmin_left, Rmax_right in Hc by lra. assert (P1 := gf_pos sp GF c ltac:(lra)). assert (0 <= psi1 sp c * (y - x)) by (apply Rmult_le_pos; lra). lra.
Qed.
Lemma lgam_sum a : 0 < a < v -> 2 * lgam sp (v / 2) <= lgam sp a + lgam sp (v - a).
Proof.
  intro Ha. set (g := fun x => lgam sp x + lgam sp (v - x)). set (dg := fun x => psi sp x - psi sp (v - x)).
  assert (D : forall x, 0 < x < v -> is_derive g x (dg x)).
  { intros x Hx. unfold g, dg. apply (is_derive_plus (lgam sp) (fun x => lgam sp (v - x)) x (psi sp x) (- psi sp (v - x))); [apply GF; lra|].
    replace (- psi sp (v - x)) with (scal (-1) (psi sp (v - x))) by (unfold scal; cbn; unfold mult; cbn; ring). apply (is_derive_comp (lgam sp) (fun x => v - x)); [apply GF; lra|]. auto_derive; auto; ring. }
  assert (E2 : g (v / 2) = 2 * lgam sp (v / 2)) by (unfold g; replace (v - v / 2) with (v / 2) by field; ring). rewrite <- E2. change (lgam sp a + lgam sp (v - a)) with (g a).
  destruct (MVT_gen g (v / 2) a dg) as [c [Hc E]].
  - intros z Hz. apply D. unfold Rmin, Rmax in Hz. destruct (Rle_dec (v / 2) a); lra.
  - intros z Hz. eapply cont_pt_derive. apply D. unfold Rmin, Rmax in Hz. destruct (Rle_dec (v / 2) a); lra.
  - unfold Rmin, Rmax in Hc. unfold dg in E. destruct (Rle_dec (v / 2) a) as [L|L].
    + assert (T := psi_incr (v - c) c ltac:(lra) ltac:(lra)). assert (0 <= (psi sp c - psi sp (v - c)) * (a - v / 2)) by (apply Rmult_le_pos; lra). lra.
    + assert (T := psi_incr c (v - c) ltac:(lra) ltac:(lra)). assert (0 <= (psi sp (v - c) - psi sp c) * (v / 2 - a)) by (apply Rmult_le_pos; lra). lra.
Qed.
Definition top_rating (x : R) : R := (v + 1) * (Rabs (ln x) + Rabs (ln (1 - x))) + Rabs (lgam sp v) + 2 * Rabs (lgam sp (v / 2)).
Lemma scaled_le c l : - (v + 1) <= c <= v + 1 -> c * l <= (v + 1) * Rabs l.
Proof. intro H. unfold Rabs. destruct (Rcase_abs l); nra. Qed.
Lemma rating_top s x f : rating_ll sp v s x f <= top_rating x.
Proof.
  unfold rating_ll. set (mu := mean_rating s f). assert (M : 0 < mu < 1) by (apply mean_range).
  assert (A : 0 < v * mu < v) by (split; nra). assert (G := lgam_sum (v * mu) A). replace (v - v * mu) with (v * (1 - mu)) in G by ring.
  assert (S1 := scaled_le (v * mu - 1) (ln x) ltac:(lra)). assert (S2 := scaled_le (v * (1 - mu) - 1) (ln (1 - x)) ltac:(lra)).
  assert (R1 := Rle_abs (lgam sp v)). assert (R2 := Rle_abs (- lgam sp (v / 2))). rewrite Rabs_Ropp in R2. unfold top_rating. lra.
Qed.
Lemma rating_cont s x f : continuity_pt (rating_ll sp v s x) f.
Proof. eapply cont_pt_derive. now apply rating_derive. Qed.
End Ratings.
Section All.
Variables (sp : special) (P : probit_set) (n : nat) (y : labels).
Hypotheses (GP : good_probits sp P) (GL : good_labels P n y) (SO : y_ord y <> None -> separated (ps_o P)).
Definition unrated : labels := mkLabels (y_rel y) (y_ord y) None.
Definition ratings_part (F : nat -> R) : R := part (y_abs y) (fun a => LLa sp (a_v (ps_a P)) (a_sigma (ps_a P)) a F).
Lemma LL_split F : LL sp P y F = LL sp P unrated F + ratings_part F.
Proof. unfold LL, unrated, ratings_part. cbn [y_rel y_ord y_abs part]. ring. Qed.
Lemma unrated_good : good_labels P n unrated.
Proof. destruct GL as [A [B _]]. split; [exact A|]. split; [exact B|]. intros a H. discriminate H. Qed.
Lemma unrated_discrete : discrete P unrated.
Proof. split; [reflexivity|exact SO]. Qed.
Definition top_all : R := part (y_abs y) (fun a => rsum (map (fun p => Rabs (top_rating sp (a_v (ps_a P)) (fst p))) a)).
Lemma top_all_bound F : ratings_part F <= top_all.
Proof.
  unfold ratings_part, top_all. destruct (y_abs y) as [a|]; cbn [part]; [|lra]. unfold LLa. destruct GP as [_ [_ [V [_ GF]]]]. induction a as [|p a IH]; cbn [map rsum]; [lra|].
  assert (T := rating_top sp _ GF V (a_sigma (ps_a P)) (fst p) (F (snd p))). assert (R1 := Rle_abs (top_rating sp (a_v (ps_a P)) (fst p))). lra.
Qed.
Lemma ratings_cont : seq_continuous n ratings_part.
Proof.
  intros x l L. unfold ratings_part. destruct GL as [_ [_ GA]]. destruct (y_abs y) as [a|]; cbn [part]; [|apply is_lim_seq_const]. unfold LLa.
  apply (rsum_lim (fun k p => rating_ll sp (a_v (ps_a P)) (a_sigma (ps_a P)) (fst p) (x k (snd p)))). intros p Hp.
  apply (is_lim_seq_continuous (rating_ll sp (a_v (ps_a P)) (a_sigma (ps_a P)) (fst p)) (fun k => x k (snd p))); [apply rating_cont; apply GP|]. apply L. now apply (proj2 (GA a eq_refl)).
Qed.
Lemma mode_exists_all K B : symmetric n K -> pd n K -> right_inverse n K B -> exists F, mode sp P y n B F.
Proof.
  intros SK PK IB. destruct (penal_max n K B SK PK IB (fun F => LL sp P y F - top_all)) as [F HF].
  - intros x l L. apply (is_lim_seq_minus' (fun k => LL sp P y (x k)) (fun _ => top_all)); [|apply is_lim_seq_const]. rewrite LL_split.
    apply (is_lim_seq_ext (fun k => LL sp P unrated (x k) + ratings_part (x k))); [intro k; symmetry; apply LL_split|].
    apply is_lim_seq_plus'; [now apply (LL_cont sp P n unrated GP unrated_good unrated_discrete)|now apply ratings_cont].
  - intro F. cbn beta. rewrite LL_split. assert (A := LL_nonpos sp P n unrated GP unrated_good unrated_discrete F). assert (T := top_all_bound F). lra.
  - exists F. intro G. unfold log_post. assert (T := HF G). cbn beta in T. lra.
Qed.
End All.
