(** Property C143: what Monte-Carlo sampling samples from *)
From Coquelicot Require Import Coquelicot.
From Coq Require Import Reals Lra Lia List Arith.
From Verif Require Import M_RBase M_Util S_MH P_MH S_Psd.
Import ListNotations.
Local Open Scope R_scope.

(** normal proposals around real vectors and uniform thresholds balance every pair of states *)
Theorem C143_balance : forall (ll : list R -> option R) std x y,
  mass (ll x) * around std x y * RInt (fun u => if accept (ll y) (ll x) u then 1 else 0) 0 1 = mass (ll y) * around std y x * RInt (fun u => if accept (ll x) (ll y) u then 1 else 0) 0 1.
Proof. exact mh_balance. Qed.
Print Assumptions C143_balance.
(** finitely many states: started from the target distribution every returned sample has the target distribution *)
Theorem C143_stationary_finite : forall N m w step ll h d ns nb j, proposal_ok N m w step -> 0 < sumn N (fun x => mass (ll x)) -> (j < ns)%nat ->
  target_mean N ll (fun x => mean_over m w (ns + nb) (fun v u => h (nth j (metropolis_hastings ll (fun i => step (v i)) u x ns nb) d))) = target_mean N ll h.
Proof. exact mh_stationary. Qed.
Print Assumptions C143_stationary_finite.
(** started anywhere, the error falls geometrically with the length of the burn-in *)
Theorem C143_converges_finite : forall N m w step ll beta h lo hi d ns nb j x, proposal_ok N m w step -> 0 < sumn N (fun x => mass (ll x)) -> 0 <= beta <= 1 -> (forall x y, (x < N)%nat -> (y < N)%nat -> beta <= proposes m w step x y) ->
  (forall y, (y < N)%nat -> lo <= h y <= hi) -> (x < N)%nat -> (j < ns)%nat ->
  Rabs (mean_over m w (ns + nb) (fun v u => h (nth j (metropolis_hastings ll (fun i => step (v i)) u x ns nb) d)) - target_mean N ll h) <= (1 - beta) ^ (S (nb + j)) * (hi - lo).
Proof. exact mh_converges. Qed.
Print Assumptions C143_converges_finite.
(** only differences of the log likelihood matter *)
Theorem C143_constant : forall (X : Type) c (ll : X -> option R) prop thr x0 ns nb, metropolis_hastings (fun x => option_map (Rplus c) (ll x)) prop thr x0 ns nb = metropolis_hastings ll prop thr x0 ns nb.
Proof. exact @mh_constant. Qed.
Print Assumptions C143_constant.
(** two states, the second three times as likely: after a burn-in of 10 the chance of the second is 3/4 up to 2^-11 *)
Example C143_ex : let ll x := Some (if Nat.eqb x 0 then 0 else ln 3) in let step v x := if Nat.eqb v 1 then (1 - x)%nat else x in let h x := if Nat.eqb x 0 then 0 else 1 in
  proposal_ok 2 2 (fun _ => 1 / 2) step /\ Rabs (mean_over 2 (fun _ => 1 / 2) 11 (fun v u => h (nth 0 (metropolis_hastings ll (fun i => step (v i)) u 0%nat 1 10) 0%nat)) - 3 / 4) <= (1 / 2) ^ 11.
Proof.
  intros ll step h. split; [apply flip_ok|].
  assert (E3 : exp (ln 3) = 3) by (apply exp_ln; lra).
  assert (T : target_mean 2 ll h = 3 / 4) by (unfold target_mean, h, ll, mass; cbn; rewrite E3, exp_0; field). rewrite <- T.
  replace ((1 / 2) ^ 11) with ((1 - 1 / 2) ^ 11 * (1 - 0)) by (cbn; field). apply (C143_converges_finite 2 2 (fun _ => 1 / 2) step ll (1 / 2) h 0 1 0%nat 1 10 0 0%nat); try lia; try lra; try apply flip_ok.
  - unfold ll, mass; cbn. rewrite E3, exp_0. lra.
  - intros y _. unfold h. destruct (Nat.eqb y 0); lra.
Qed.
