(** Floating-point model of the RBF kernel, /repo/src/lop/kernels/RBF_kern.py:103-121, and of the factorisation of the covariance of
    two training points in /repo/src/lop/models/GP.py:106-112.  As in M_Float every operation is the exact one followed by the
    rounding of a format; the order in which [np.sum] adds is an argument.  Points and parameters are finite. *)
From Verif Require Import M_Base M_RBase M_Kernel M_Float M_FloatProbit.
Local Open Scope R_scope.

(** RBF_kern.py:115-116: [diff*diff], added up over the dimensions *)
Definition sqdist_fl (F : fmt) (sm : list fval -> fval) (u v : point) : fval :=
  sm (map (fun ab : R * R => let d := fsub F (Fin (fst ab)) (Fin (snd ab)) in fmul F d d) (combine u v)).
(** RBF_kern.py:118: [2 * self.l*self.l] *)
Definition two_l2_fl (F : fmt) (l : R) : fval := fmul F (fmul F (Fin 2) (Fin l)) (Fin l).
(** RBF_kern.py:118: [self.sigma * self.sigma * np.exp(-top / (2 * self.l*self.l))] *)
Definition rbf_fl (F : fmt) (sm : list fval -> fval) (s l : R) (u v : point) : fval :=
  fmul F (fmul F (Fin s) (Fin s)) (fexp F (fdiv F (fneg (sqdist_fl F sm u v)) (two_l2_fl F l))).
(** RBF_kern.py:120: [cov += np.eye(n)*self.sigma_noise] *)
Definition add_eye_fl (F : fmt) (noise : R) (M : list (list fval)) : list (list fval) :=
  map (fun ir : nat * list fval => map (fun jv : nat * fval =>
         fadd F (snd jv) (fmul F (Fin (if Nat.eqb (fst ir) (fst jv) then 1 else 0)) (Fin noise))) (enumerate (snd ir))) (enumerate M).
(** RBF_kern.py:103-121 [cov] *)
Definition rbf_cov_fl (F : fmt) (sm : list fval -> fval) (s l noise : R) (X Y : list point) : result (list (list fval)) :=
  let cov := map (fun x => map (fun y => rbf_fl F sm s l x y) Y) X in
  if Nat.eqb (length X) (length Y) then                                                   (* line 119 *)
    do x0 <- getitem X 0; do y0 <- getitem Y 0;
    Ok (if point_eqb x0 y0 then add_eye_fl F noise cov else cov)
  else Ok cov.

(** square root, as inside [np.linalg.cholesky] (GP.py:112) *)
Definition fsqrt (F : fmt) (a : fval) : fval :=
  match a with NaN | NInf => NaN | PInf => PInf | Fin x => if Rltb x 0 then NaN else rnd F (sqrt x) end.
(** [np.linalg.cholesky] of a matrix with the rows (a, b), (b, c) (GP.py:112): the library may divide by a pivot or multiply by its
    inverse ([inv]), and may round a product before it subtracts it or not ([fused]).  A pivot that is not positive raises. *)
Definition chol2_fl (F : fmt) (inv fused : bool) (a b c : fval) : result (fval * fval * fval) :=
  if fltb (Fin 0) a then
    let l11 := fsqrt F a in
    let l21 := if inv then fmul F b (fdiv F (Fin 1) l11) else fdiv F b l11 in
    let d := match fused, c, l21 with true, Fin x, Fin y => rnd F (x - y * y) | _, _, _ => fsub F c (fmul F l21 l21) end in
    if fltb (Fin 0) d then Ok (l11, l21, fsqrt F d) else Raise LinAlgError
  else Raise LinAlgError.
(** the entry of a matrix of numbers (GP.py:109) *)
Definition entry_fl (M : list (list fval)) (i j : nat) : fval := nth j (nth i M []) NaN.
(** GP.py:101-112 for two training points with uncertainties [sx] and [sy] *)
Definition gp_factor2_fl (F : fmt) (sm : list fval -> fval) (inv fused : bool) (s l noise : R) (x y : point) (sx sy : R) : result (fval * fval * fval) :=
  do K <- rbf_cov_fl F sm s l noise [x; y] [x; y];
  chol2_fl F inv fused (fadd F (entry_fl K 0 0) (Fin sx)) (fadd F (entry_fl K 1 0) (Fin 0)) (fadd F (entry_fl K 1 1) (Fin sy)).
