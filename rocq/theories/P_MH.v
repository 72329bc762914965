(** Lemmas for Monte-Carlo sampling. *)
From Coquelicot Require Import Coquelicot.
From Coq Require Import Reals Lra Lia List Arith.
From Verif Require Import M_RBase M_Util S_MH P_RBase S_Psd P_Psd.
Import ListNotations.
Local Open Scope R_scope.

(** the chance that a threshold accepts *)
Definition takes (b a : option R) : R := match b, a with Some b, Some a => Rmin 1 (exp (b - a)) | None, Some _ => 0 | Some _, None => 1 | None, None => 0 end.
Lemma takes_range b a : 0 <= takes b a <= 1.
Proof. destruct b as [b|], a as [a|]; cbn; try lra. split; [apply Rmin_glb; [lra|left; apply exp_pos]|apply Rmin_l]. Qed.
Lemma step_RInt c A B : 0 <= c <= 1 -> is_RInt (fun u => if Rltb u c then A else B) 0 1 (c * A + (1 - c) * B).
Proof.
  intro Hc. replace (c * A + (1 - c) * B) with (plus (scal (c - 0) A) (scal (1 - c) B)) by (unfold plus, scal; cbn; unfold mult; cbn; ring).
  apply (is_RInt_Chasles (V := R_NormedModule) _ 0 c 1).
  - apply (is_RInt_ext (fun _ => A)); [|apply (is_RInt_const (V := R_NormedModule))]. intros x Hx. rewrite Rmin_left, Rmax_right in Hx by lra. unfold Rltb. destruct (Rlt_dec x c); [reflexivity|lra].
  - apply (is_RInt_ext (fun _ => B)); [|apply (is_RInt_const (V := R_NormedModule))]. intros x Hx. rewrite Rmin_left, Rmax_right in Hx by lra. unfold Rltb. destruct (Rlt_dec x c); [lra|reflexivity].
Qed.
Lemma accept_RInt b a (A B : R) : is_RInt (fun u => if accept b a u then A else B) 0 1 (takes b a * A + (1 - takes b a) * B).
Proof.
  destruct b as [b|], a as [a|]; cbn [takes accept].
  - destruct (Rle_dec (exp (b - a)) 1) as [H|H].
    + rewrite Rmin_right by exact H. apply step_RInt. split; [left; apply exp_pos|exact H].
    + rewrite Rmin_left by lra. apply (is_RInt_ext (fun u => if Rltb u 1 then A else B)); [|apply step_RInt; lra]. intros x Hx. rewrite Rmin_left, Rmax_right in Hx by lra. unfold Rltb. destruct (Rlt_dec x 1), (Rlt_dec x (exp (b - a))); try lra; reflexivity.
  - assert (H := step_RInt 1 A B ltac:(lra)). apply (is_RInt_ext (fun u => if Rltb u 1 then A else B)); [|exact H]. intros x Hx. rewrite Rmin_left, Rmax_right in Hx by lra. unfold Rltb. destruct (Rlt_dec x 1); [reflexivity|lra].
  - apply step_RInt; lra.
  - assert (H := step_RInt 0 A B ltac:(lra)). apply (is_RInt_ext (fun u => if Rltb u 0 then A else B)); [|exact H]. intros x Hx. rewrite Rmin_left, Rmax_right in Hx by lra. unfold Rltb. destruct (Rlt_dec x 0); [lra|reflexivity].
Qed.
Lemma accept_chance b a : RInt (fun u => if accept b a u then 1 else 0) 0 1 = takes b a.
Proof. apply is_RInt_unique. assert (H := accept_RInt b a 1 0). replace (takes b a) with (takes b a * 1 + (1 - takes b a) * 0) by ring. exact H. Qed.
Lemma takes_balance a b : mass a * takes b a = mass b * takes a b.
Proof.
  destruct a as [a|], b as [b|]; cbn; try ring. destruct (Rle_dec a b) as [H|H].
  - rewrite (Rmin_left 1 (exp (b - a))), (Rmin_right 1 (exp (a - b))). { rewrite <- exp_plus. replace (b + (a - b)) with a by ring. ring. }
    + rewrite <- exp_0. destruct (Req_dec a b) as [-> |N]; [right; f_equal; ring|left; apply exp_increasing; lra].
    + rewrite <- exp_0. destruct (Req_dec a b) as [-> |N]; [right; f_equal; ring|left; apply exp_increasing; lra].
  - rewrite (Rmin_right 1 (exp (b - a))), (Rmin_left 1 (exp (a - b))). { rewrite <- exp_plus. replace (a + (b - a)) with b by ring. ring. }
    + rewrite <- exp_0. left; apply exp_increasing; lra.
    + rewrite <- exp_0. left; apply exp_increasing; lra.
Qed.
Lemma around_sym std x : forall y, around std x y = around std y x.
Proof. induction x as [|a x IH]; intros [|b y]; try reflexivity. cbn. rewrite IH. do 3 f_equal. unfold Rdiv. ring. Qed.
(** ---- the loop ---- *)
Lemma mh_shift {X} (ll : X -> option R) prop thr burn n : forall i cur cll, mh_loop ll prop thr burn n (S i) cur cll = mh_loop ll (fun k => prop (S k)) (fun k => thr (S k)) (pred burn) n i cur cll.
Proof.
  revert burn. induction n as [|n IH]; intros burn i cur cll; [reflexivity|]. cbn [mh_loop]. destruct (accept (ll (prop (S i) cur)) cll (thr (S i))); rewrite (IH burn (S i)); f_equal; destruct burn; reflexivity.
Qed.
Section Chain.
Variables (N m : nat) (w : nat -> R) (step : nat -> nat -> nat) (ll : nat -> option R).
Hypotheses (Hw : forall v, (v < m)%nat -> 0 <= w v) (Hs : sumn m w = 1) (Hstep : forall v x, (v < m)%nat -> (x < N)%nat -> (step v x < N)%nat).
(** one step of the chain, applied to a function *)
Definition after (f : nat -> R) (x : nat) : R := sumn m (fun v => w v * (takes (ll (step v x)) (ll x) * f (step v x) + (1 - takes (ll (step v x)) (ll x)) * f x)).
Fixpoint afters (n : nat) (f : nat -> R) : nat -> R := match n with O => f | S n' => after (afters n' f) end.
Lemma mean_const n c : mean_over m w n (fun _ _ => c) = c.
Proof.
  induction n as [|n IH]; [reflexivity|]. cbn [mean_over]. rewrite (sumn_ext m _ (fun v => w v * c)); [rewrite sumn_scale_r, Hs; ring|]. intros v _. f_equal. rewrite (RInt_ext _ (fun _ => c)) by (intros x _; exact IH). rewrite RInt_const. unfold scal; cbn; unfold mult; cbn. ring.
Qed.
Lemma mean_ext n : forall Phi Psi, (forall v u, Phi v u = Psi v u) -> mean_over m w n Phi = mean_over m w n Psi.
Proof.
  induction n as [|n IH]; intros Phi Psi H; [apply H|]. cbn [mean_over]. apply sumn_ext. intros v _. f_equal. apply RInt_ext. intros u _. apply IH. intros; apply H.
Qed.
Definition run (burn n : nat) (x : nat) (v : nat -> nat) (u : nat -> R) : list nat := mh_loop ll (fun i => step (v i)) u burn n 0 x (ll x).
Lemma run_S burn n x v0 u0 v u : run burn (S n) x (scons v0 v) (scons u0 u) =
  let y := if accept (ll (step v0 x)) (ll x) u0 then step v0 x else x in (match burn with O => [y] | _ => [] end) ++ run (pred burn) n y v u.
Proof.
  unfold run. cbn [mh_loop]. change (scons v0 v 0%nat) with v0. change (scons u0 u 0%nat) with u0. destruct (accept (ll (step v0 x)) (ll x) u0); rewrite mh_shift; cbv zeta; (f_equal; destruct burn; reflexivity).
Qed.
Lemma mean_run (h : nat -> R) d : forall n burn j x, (burn + j < n)%nat -> mean_over m w n (fun v u => h (nth j (run burn n x v u) d)) = afters (S (burn + j)) h x.
Proof.
  induction n as [|n IH]; intros burn j x H; [lia|]. cbn [mean_over]. change (afters (S (burn + j)) h x) with (after (afters (burn + j) h) x). unfold after. apply sumn_ext. intros v0 _. f_equal.
  apply is_RInt_unique. eapply is_RInt_ext; [|apply accept_RInt]. intros u0 _. cbv beta. symmetry. transitivity (afters (burn + j) h (if accept (ll (step v0 x)) (ll x) u0 then step v0 x else x)); [|now destruct (accept (ll (step v0 x)) (ll x) u0)].
  set (y := if accept (ll (step v0 x)) (ll x) u0 then step v0 x else x). rewrite (mean_ext n _ (fun v u => h (nth j ((match burn with O => [y] | _ => [] end) ++ run (pred burn) n y v u) d))) by (intros v u; now rewrite run_S).
  destruct burn as [|b].
  - destruct j as [|j].
    + cbn. apply mean_const.
    + rewrite (mean_ext n _ (fun v u => h (nth j (run 0 n y v u) d))) by reflexivity. rewrite (IH 0%nat j y) by lia. reflexivity.
  - cbn [app pred]. rewrite (IH b j y) by lia. reflexivity.
Qed.
(** ---- the transition matrix ---- *)
Definition flow (x y : nat) : R := proposes m w step x y * takes (ll y) (ll x).
Lemma sum_reach (g : nat -> R) x : (x < N)%nat -> sumn m (fun v => w v * g (step v x)) = sumn N (fun y => proposes m w step x y * g y).
Proof.
  intro Hx. unfold proposes. rewrite (sumn_ext N _ (fun y => sumn m (fun v => (if Nat.eqb (step v x) y then w v else 0) * g y))) by (intros y _; now rewrite sumn_scale_r).
  rewrite sumn_swap. apply sumn_ext. intros v Hv. rewrite (sumn_single N _ (step v x)); [now rewrite Nat.eqb_refl|now apply Hstep|]. intros i _ Hi. replace (Nat.eqb (step v x) i) with false by (symmetry; apply Nat.eqb_neq; congruence). ring.
Qed.
Lemma after_flow f x : (x < N)%nat -> after f x = f x + sumn N (fun y => flow x y * (f y - f x)).
Proof.
  intro Hx. unfold after, flow. rewrite (sumn_ext m _ (fun v => w v * f x + w v * (takes (ll (step v x)) (ll x) * (f (step v x) - f x)))) by (intros v _; ring).
  rewrite sumn_plus, sumn_scale_r, Hs, Rmult_1_l. f_equal. rewrite (sum_reach (fun y => takes (ll y) (ll x) * (f y - f x)) x Hx). apply sumn_ext. intros y _. ring.
Qed.
Lemma reach_one x : (x < N)%nat -> sumn N (proposes m w step x) = 1.
Proof. intro Hx. rewrite <- Hs. rewrite (sumn_ext N _ (fun y => proposes m w step x y * 1)) by (intros; ring). rewrite <- (sum_reach (fun _ => 1) x Hx). apply sumn_ext. intros; ring. Qed.
Lemma reach_nonneg x y : 0 <= proposes m w step x y.
Proof. apply sumn_nonneg. intros v Hv. destruct (Nat.eqb (step v x) y); [now apply Hw|lra]. Qed.
Hypothesis (Hsym : forall x y, (x < N)%nat -> (y < N)%nat -> proposes m w step x y = proposes m w step y x).
Lemma invariant f : sumn N (fun x => mass (ll x) * after f x) = sumn N (fun x => mass (ll x) * f x).
Proof.
  rewrite (sumn_ext N _ (fun x => mass (ll x) * f x + (sumn N (fun y => mass (ll x) * flow x y * f y) - sumn N (fun y => mass (ll x) * flow x y * f x)))).
  2:{ intros x Hx. rewrite after_flow by exact Hx. rewrite Rmult_plus_distr_l, <- sumn_scale, <- sumn_minus. f_equal. apply sumn_ext. intros; ring. }
  rewrite sumn_plus, sumn_minus. rewrite (sumn_swap N N (fun x y => mass (ll x) * flow x y * f y)).
  rewrite (sumn_ext N (fun j => sumn N (fun i => mass (ll i) * flow i j * f j)) (fun j => sumn N (fun i => mass (ll j) * flow j i * f j))); [ring|].
  intros j Hj. apply sumn_ext. intros i Hi. unfold flow. rewrite (Hsym i j Hi Hj). assert (B := takes_balance (ll i) (ll j)). replace (mass (ll i) * (proposes m w step j i * takes (ll j) (ll i)) * f j) with (mass (ll i) * takes (ll j) (ll i) * (proposes m w step j i * f j)) by ring. rewrite B. ring.
Qed.
Lemma invariants n f : sumn N (fun x => mass (ll x) * afters n f x) = sumn N (fun x => mass (ll x) * f x).
Proof. induction n as [|n IH]; [reflexivity|]. cbn [afters]. rewrite invariant. exact IH. Qed.
(** ---- convergence ---- *)
Variable (beta : R).
Hypotheses (Hb : 0 <= beta) (Hreach : forall x y, (x < N)%nat -> (y < N)%nat -> beta <= proposes m w step x y) (Hpos : 0 < sumn N (fun x => mass (ll x))).
Definition share (x : nat) : R := mass (ll x) / sumn N (fun x => mass (ll x)).
Lemma mass_nonneg l : 0 <= mass l.
Proof. destruct l; cbn; [left; apply exp_pos|lra]. Qed.
Lemma mass_le x : (x < N)%nat -> mass (ll x) <= sumn N (fun x => mass (ll x)).
Proof.
  clear -N. intro Hx. induction N as [|n IH]; [lia|]. cbn [sumn]. destruct (Nat.eq_dec x n) as [-> |E].
  - assert (0 <= sumn n (fun x => mass (ll x))) by (apply sumn_nonneg; intros; apply mass_nonneg). lra.
  - assert (P := mass_nonneg (ll n)). specialize (IH ltac:(lia)). lra.
Qed.
Lemma flow_big x y : (x < N)%nat -> (y < N)%nat -> beta * share y <= flow x y.
Proof.
  intros Hx Hy. unfold flow. assert (R := Hreach x y Hx Hy). assert (T := takes_range (ll y) (ll x)).
  assert (S : share y <= takes (ll y) (ll x)).
  { unfold share. set (Z := sumn N (fun x => mass (ll x))) in *. assert (Ly := mass_le y Hy). assert (Lx := mass_le x Hx). fold Z in Ly, Lx. apply (Rmult_le_reg_r Z); [exact Hpos|]. replace (mass (ll y) / Z * Z) with (mass (ll y)) by (field; lra).
    destruct (ll y) as [b|] eqn:Ey; [|cbn in *; apply Rmult_le_pos; lra]. destruct (ll x) as [a|] eqn:Ex; cbn in *; [|lra]. assert (Pb := exp_pos b). destruct (Rle_dec 1 (exp (b - a))) as [H|H].
    - rewrite Rmin_left by exact H. lra.
    - rewrite Rmin_right by lra. replace (exp b) with (exp (b - a) * exp a) by (rewrite <- exp_plus; f_equal; ring). apply Rmult_le_compat_l; [left; apply exp_pos|exact Lx]. }
  assert (0 <= share y) by (unfold share; apply Rmult_le_pos; [apply mass_nonneg|left; now apply Rinv_0_lt_compat]). apply Rmult_le_compat; auto.
Qed.
Lemma share_sum g : sumn N (fun y => share y * g y) = target_mean N ll g.
Proof. unfold target_mean, share. unfold Rdiv. rewrite <- sumn_scale_r. apply sumn_ext. intros; ring. Qed.
Lemma share_one : sumn N share = 1.
Proof. unfold share, Rdiv. rewrite sumn_scale_r. field. lra. Qed.
Lemma after_bounds f lo hi x : (forall y, (y < N)%nat -> lo <= f y <= hi) -> (x < N)%nat -> beta * target_mean N ll f + (1 - beta) * lo <= after f x <= beta * target_mean N ll f + (1 - beta) * hi.
Proof.
  intros Hf Hx. rewrite after_flow by exact Hx. set (T := target_mean N ll f).
  assert (D : sumn N (fun y => beta * share y * (f y - f x)) = beta * T - beta * f x). { rewrite (sumn_ext N _ (fun y => beta * (share y * f y) - beta * (share y * f x))) by (intros; ring). rewrite sumn_minus, !sumn_scale, share_sum, sumn_scale_r, share_one. unfold T. ring. }
  assert (F1 : sumn N (flow x) <= 1). { rewrite <- (reach_one x Hx). apply sumn_le. intros y Hy. unfold flow. assert (R := reach_nonneg x y). assert (K := takes_range (ll y) (ll x)). nra. }
  set (c := fun y => flow x y - beta * share y). assert (C0 : forall y, (y < N)%nat -> 0 <= c y) by (intros y Hy; unfold c; assert (L := flow_big x y Hx Hy); lra).
  assert (E : sumn N (fun y => flow x y * (f y - f x)) = beta * T - beta * f x + sumn N (fun y => c y * (f y - f x))). { rewrite <- D, <- sumn_plus. apply sumn_ext. intros; unfold c; ring. }
  assert (C1 : sumn N c <= 1 - beta). { unfold c. rewrite sumn_minus, sumn_scale, share_one. lra. }
  assert (C2 : 0 <= sumn N c) by now apply sumn_nonneg.
  rewrite E. assert (Fx := Hf x Hx). split.
  - assert (L : sumn N (fun y => c y * (lo - f x)) <= sumn N (fun y => c y * (f y - f x))) by (apply sumn_le; intros y Hy; apply Rmult_le_compat_l; [auto|]; destruct (Hf y Hy); lra). rewrite sumn_scale_r in L. nra.
  - assert (L : sumn N (fun y => c y * (f y - f x)) <= sumn N (fun y => c y * (hi - f x))) by (apply sumn_le; intros y Hy; apply Rmult_le_compat_l; [auto|]; destruct (Hf y Hy); lra). rewrite sumn_scale_r in L. nra.
Qed.
Lemma afters_bounds f lo hi n : beta <= 1 -> (forall y, (y < N)%nat -> lo <= f y <= hi) -> exists l k, k - l = (1 - beta) ^ n * (hi - lo) /\ forall y, (y < N)%nat -> l <= afters n f y <= k.
Proof.
  intros B1 Hf. induction n as [|n [l [k [E H]]]]; [exists lo, hi; split; [ring|exact Hf]|]. set (T := target_mean N ll (afters n f)). exists (beta * T + (1 - beta) * l), (beta * T + (1 - beta) * k). split; [cbn [pow]; replace (beta * T + (1 - beta) * k - (beta * T + (1 - beta) * l)) with ((1 - beta) * (k - l)) by ring; rewrite E; ring|].
  intros y Hy. cbn [afters]. now apply after_bounds.
Qed.
Lemma target_invariants n f : target_mean N ll (afters n f) = target_mean N ll f.
Proof. unfold target_mean. now rewrite invariants. Qed.
Lemma target_between f lo hi : (forall y, (y < N)%nat -> lo <= f y <= hi) -> lo <= target_mean N ll f <= hi.
Proof.
  intro Hf. rewrite <- share_sum. assert (P : forall y, 0 <= share y) by (intro y; unfold share; apply Rmult_le_pos; [apply mass_nonneg|left; now apply Rinv_0_lt_compat]). split.
  - replace lo with (sumn N (fun y => share y * lo)) by (rewrite sumn_scale_r, share_one; ring). apply sumn_le. intros y Hy. apply Rmult_le_compat_l; [apply P|now apply Hf].
  - replace hi with (sumn N (fun y => share y * hi)) by (rewrite sumn_scale_r, share_one; ring). apply sumn_le. intros y Hy. apply Rmult_le_compat_l; [apply P|now apply Hf].
Qed.
Lemma converges f lo hi n x : beta <= 1 -> (forall y, (y < N)%nat -> lo <= f y <= hi) -> (x < N)%nat -> Rabs (afters n f x - target_mean N ll f) <= (1 - beta) ^ n * (hi - lo).
Proof.
  intros B1 Hf Hx. destruct (afters_bounds f lo hi n B1 Hf) as [l [k [E H]]]. assert (T := target_between (afters n f) l k H). rewrite target_invariants in T. specialize (H x Hx). apply Rabs_le. lra.
Qed.
End Chain.
Lemma mh_run ll step x ns nb v u : metropolis_hastings ll (fun i => step (v i)) u x ns nb = run step ll nb (ns + nb) x v u.
Proof. reflexivity. Qed.
Lemma mh_stationary N m w step ll h d ns nb j : proposal_ok N m w step -> 0 < sumn N (fun x => mass (ll x)) -> (j < ns)%nat ->
  target_mean N ll (fun x => mean_over m w (ns + nb) (fun v u => h (nth j (metropolis_hastings ll (fun i => step (v i)) u x ns nb) d))) = target_mean N ll h.
Proof.
  intros [W [S [C Y]]] Z Hj. rewrite <- (target_invariants N m w step ll S C Y (Datatypes.S (nb + j)) h). unfold target_mean. f_equal. apply sumn_ext. intros x Hx. f_equal. rewrite <- (mean_run m w step ll S h d (ns + nb) nb j x ltac:(lia)). reflexivity.
Qed.
Lemma mh_converges N m w step ll beta h lo hi d ns nb j x : proposal_ok N m w step -> 0 < sumn N (fun x => mass (ll x)) -> 0 <= beta <= 1 -> (forall x y, (x < N)%nat -> (y < N)%nat -> beta <= proposes m w step x y) ->
  (forall y, (y < N)%nat -> lo <= h y <= hi) -> (x < N)%nat -> (j < ns)%nat ->
  Rabs (mean_over m w (ns + nb) (fun v u => h (nth j (metropolis_hastings ll (fun i => step (v i)) u x ns nb) d)) - target_mean N ll h) <= (1 - beta) ^ (S (nb + j)) * (hi - lo).
Proof.
  intros [W [S [C Y]]] Z [B0 B1] HB Hh Hx Hj. assert (E := mean_run m w step ll S h d (ns + nb) nb j x ltac:(lia)). unfold run in E. change (mean_over m w (ns + nb) (fun v u => h (nth j (metropolis_hastings ll (fun i => step (v i)) u x ns nb) d)) = afters m w step ll (Datatypes.S (nb + j)) h x) in E. rewrite E. apply converges with (N := N); auto.
Qed.
Lemma accept_shift c b a t : accept (option_map (Rplus c) b) (option_map (Rplus c) a) t = accept b a t.
Proof. destruct b as [b|], a as [a|]; try reflexivity. cbn. now replace (c + b - (c + a)) with (b - a) by ring. Qed.
Lemma mh_constant {X} c (ll : X -> option R) prop thr x0 ns nb : metropolis_hastings (fun x => option_map (Rplus c) (ll x)) prop thr x0 ns nb = metropolis_hastings ll prop thr x0 ns nb.
Proof.
  unfold metropolis_hastings. generalize (ns + nb)%nat, 0%nat. intros n i. revert i x0. induction n as [|n IH]; intros i x0; [reflexivity|]. cbn [mh_loop]. rewrite accept_shift. destruct (accept (ll (prop i x0)) (ll x0) (thr i)); now rewrite IH.
Qed.
Lemma mh_balance (ll : list R -> option R) std x y :
  mass (ll x) * around std x y * RInt (fun u => if accept (ll y) (ll x) u then 1 else 0) 0 1 = mass (ll y) * around std y x * RInt (fun u => if accept (ll x) (ll y) u then 1 else 0) 0 1.
Proof.
  rewrite !accept_chance, (around_sym std x y). assert (B := takes_balance (ll x) (ll y)). replace (mass (ll x) * around std y x * takes (ll y) (ll x)) with (mass (ll x) * takes (ll y) (ll x) * around std y x) by ring. rewrite B. ring.
Qed.
Lemma flip_ok : proposal_ok 2 2 (fun _ => 1 / 2) (fun v x => if Nat.eqb v 1 then (1 - x)%nat else x) /\ forall x y, (x < 2)%nat -> (y < 2)%nat -> 1 / 2 <= proposes 2 (fun _ => 1 / 2) (fun v x => if Nat.eqb v 1 then (1 - x)%nat else x) x y.
Proof.
  split; [split; [intros; lra|split; [cbn; lra|split]]|].
  - intros v x _ Hx. destruct (Nat.eqb v 1); lia.
  - intros [|[|x]] [|[|y]] Hx Hy; try lia; cbn; lra.
  - intros [|[|x]] [|[|y]] Hx Hy; try lia; cbn; lra.
Qed.
