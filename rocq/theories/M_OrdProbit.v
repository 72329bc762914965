(** Model of the likelihood and derivatives of /repo/src/lop/probits/OrdinalProbit.py; the constructor and the
    hyper-parameters are in M_Hyper.v.  Vectors and matrices are given by their entries (M_PrefProbit.v). *)
From Verif Require Export M_Hyper M_PrefProbit.
Local Open Scope R_scope.

(** OrdinalProbit.py:94-97 [set_sigma] *)
Definition isigma (o : ord_probit) : R := 1 / o_sigma o.
Definition ivar (o : ord_probit) : R := isigma o ^ 2.
(** the breakpoint self.b[k] for 1 <= k <= n_ordinals - 1 (the list of the model has no infinities) *)
Definition breakpoint (o : ord_probit) (k : nat) : R := nth (k - 1) (o_b o) 0.
(** OrdinalProbit.py:113-119 [z_k] of a single label and value; the infinite breakpoints 0 and n_ordinals are not used *)
Definition oz (o : ord_probit) (k : nat) (f : R) : R := isigma o * (breakpoint o k - f).
(** OrdinalProbit.py:121-140 [norm_pdf] of a single label (the branch of line 129 is dead: y is no tuple after line 124) *)
Definition norm_pdf (o : ord_probit) (k : nat) (f : R) : R :=
  if Nat.eqb k 0 || Nat.eqb k (o_n o) then 0 else npdf (oz o k f).
(** OrdinalProbit.py:142-157 [norm_cdf], one label, var_x = 0; a label above n_ordinals is an index error (line 155) *)
Definition norm_cdf (o : ord_probit) (k : nat) (f : R) : result R :=
  if Nat.eqb k (o_n o) then Ok 1
  else if Nat.eqb k 0 then Ok 0
  else if Nat.ltb (o_n o) k then Raise IndexError
  else Ok (std_norm_cdf (oz o k f)).
(** OrdinalProbit.py:215-220 [likelihood_each]; a label is a pair (label, index of the point), line 216 *)
Definition likelihood_one (o : ord_probit) (F : vec) (y : nat * nat) : result R :=
  do a <- norm_cdf o (fst y) (F (snd y));
  do b <- norm_cdf o (fst y - 1) (F (snd y));
  Ok (a - b).
Definition likelihood_each (o : ord_probit) (y : list (nat * nat)) (F : vec) : result (list R) :=
  if existsb (fun ku => Nat.eqb (fst ku) 0) y then Raise GenericException else mapM (likelihood_one o F) y.
(** OrdinalProbit.py:179-200, the loop body: first and second derivative for a label [k] with value [f] and likelihood [l] *)
Definition ord_eps_branch (o : ord_probit) (k : nat) (f : R) : R * R :=
  if Nat.eqb k 1 then (isigma o * oz o k f, - ivar o)
  else if Nat.eqb k (o_n o) then (isigma o * oz o (k - 1) f, - ivar o)
  else let z1 := oz o k f in let z2 := oz o (k - 1) f in
       let ep := exp (- (1 / 2) * (z1 ^ 2 - z2 ^ 2)) in
       let d := isigma o * (z1 * ep - z2) / (ep - 1) in
       (d, - (ivar o * (1 - (z1 ^ 2 * ep - z2 ^ 2) / (ep - 1)) + d ^ 2)).
Definition ord_derv (o : ord_probit) (eps : R) (k : nat) (f l : R) : R * R :=
  if Rltb l eps then ord_eps_branch o k f
  else let d := - isigma o * (norm_pdf o k f - norm_pdf o (k - 1) f) / l in
       (d, - (d ^ 2 + ivar o * (norm_pdf o k f - norm_pdf o (k - 1) f) / l)).
(** numpy assignment with an index array: a[idx] = v; later values overwrite earlier ones *)
Definition put (M : vec) (iv : nat * R) : vec := fun a => if Nat.eqb a (fst iv) then snd iv else M a.
Definition put_vec (idx : list nat) (v : list R) (M : vec) : vec := fold_left put (combine idx v) M.
(** lines 204-207: full_W[meshgrid(idx, idx)] = W with W diagonal.  Off-diagonal entries stay 0; a diagonal entry keeps the value
    of the last label of its point (the grid is written in row order). *)
Definition put_diag (idx : list nat) (v : list R) : mat :=
  fun a b => if Nat.eqb a b then put_vec idx v (fun _ => 0) a else 0.
(** np.log of a likelihood: minus infinity (None) for 0 *)
Definition np_log (x : R) : option R := if Rleb x 0 then None else Some (ln x).
Fixpoint osum (l : list (option R)) : option R :=
  match l with [] => Some 0 | None :: _ => None | Some x :: l' => match osum l' with Some s => Some (x + s) | None => None end end.
(** OrdinalProbit.py:168-212 [derivatives]: W, gradient and summed log likelihood *)
Definition ord_derivatives (o : ord_probit) (eps : R) (y : list (nat * nat)) (F : vec) : result (mat * vec * option R) :=
  do l <- likelihood_each o y F;
  let d := map (fun yl => ord_derv o eps (fst (fst yl)) (F (snd (fst yl))) (snd yl)) (combine y l) in
  let idx := map snd y in
  Ok (put_diag idx (map (fun x => - snd x) d), put_vec idx (map fst d) (fun _ => 0), osum (map np_log l)).
(** OrdinalProbit.py:229-230 [likelihood] and ProbitBase.py:171-172 [log_likelihood] *)
Definition rprod (l : list R) : R := fold_right Rmult 1 l.
Definition ord_likelihood (o : ord_probit) (y : list (nat * nat)) (F : vec) : result R := do l <- likelihood_each o y F; Ok (rprod l).
Definition ord_log_likelihood (o : ord_probit) (y : list (nat * nat)) (F : vec) : result (option R) :=
  do p <- ord_likelihood o y F; Ok (np_log p).
