(** Model of /repo/src/lop/kernels: RBF_kern.py, RBF_kern_zeroed.py, LinearKern.py, PeriodicKern.py and the combination of
    kernels in KernelFunc.py.

    Points are lists of reals; all points of a data set have the same length (numpy arrays of rows), 1-d arrays of points are not
    modelled here (see M_OneD).  Matrices are lists of rows. *)
From Verif Require Import M_RBase M_Util.
Local Open Scope R_scope.

Definition point : Type := list R.
Definition matrix : Type := list (list R).

(** A kernel object with its parameters.  RBF_kern.py:44-49 (sigma, l, sigma_noise), LinearKern.py:46-51 (sigma, sigma_b, c),
    PeriodicKern.py:46-51 (sigma, l, p), RBF_kern_zeroed.py:43-46 (sigma, l, sigma_noise, zero_pt), KernelFunc.py:109-120, 136-141.
    One object used twice in an expression is treated as two objects with equal parameters. *)
Inductive kern : Type :=
| RBF (sigma l noise : R)
| Lin (sigma sigma_b c : R)
| Per (sigma l p : R)
| ZRBF (sigma l noise : R) (zero_pt : option point)
| KAdd (a b : kern)
| KMul (a b : kern).

(** [np.sum((u-v)*(u-v))] and [np.sum(np.abs(u-v))] *)
Definition sqdist (u v : point) : R := rsum (map (fun ab : R * R => (fst ab - snd ab) * (fst ab - snd ab)) (combine u v)).
Definition l1dist (u v : point) : R := rsum (map (fun ab : R * R => Rabs (fst ab - snd ab)) (combine u v)).

(** RBF_kern.py:168-175 [__call__] *)
Definition rbf_call (sigma l : R) (u v : point) : R := sigma * sigma * exp (- sqdist u v / (2 * l * l)).
(** LinearKern.py:160-161 [__call__] *)
Definition lin_call (sigma sigma_b c : R) (u v : point) : R :=
  sigma_b ^ 2 + sigma ^ 2 * rsum (map (fun ab : R * R => (fst ab - c) * (snd ab - c)) (combine u v)).
(** PeriodicKern.py:183-188 [__call__] *)
Definition per_call (sigma l p : R) (u v : point) : R :=
  let sin_tmp := sin (PI * l1dist u v / p) in
  sigma * sigma * exp (- 2 * sin_tmp * sin_tmp / (l * l)).
(** RBF_kern_zeroed.py:49-54 [lazy_zero_pt_init]: zeros of the dimension of the first point seen.  In the object the value is
    stored by the first call; as all points have one length, evaluating it in every call gives the same value. *)
Definition zero_of (z : option point) (u : point) : point := match z with Some z => z | None => repeat 0 (length u) end.
(** KernelFunc.py:242-251 [DualKern.__call__], RBF_kern_zeroed.py:140-146 *)
Fixpoint kcall (k : kern) (u v : point) : R :=
  match k with
  | RBF s l _ => rbf_call s l u v
  | Lin s sb c => lin_call s sb c u v
  | Per s l p => per_call s l p u v
  | ZRBF s l _ z => rbf_call s l u v - rbf_call s l u (zero_of z u) * rbf_call s l v (zero_of z u)
  | KAdd a b => kcall a u v + kcall b u v
  | KMul a b => kcall a u v * kcall b u v
  end.

(** entrywise application, as done by the vectorised [cov] methods *)
Definition pairwise (f : point -> point -> R) (X Y : list point) : matrix := map (fun x => map (fun y => f x y) Y) X.
(** [cov += np.eye(n) * noise] *)
Definition add_eye (noise : R) (M : matrix) : matrix :=
  map (fun ir : nat * list R => map (fun jv : nat * R => if Nat.eqb (fst ir) (fst jv) then snd jv + noise else snd jv) (enumerate (snd ir)))
      (enumerate M).
Definition Reqb (x y : R) : bool := if Req_EM_T x y then true else false.
(** [(X[0] == Y[0]).all()] *)
Definition point_eqb (u v : point) : bool := forallb (fun ab : R * R => Reqb (fst ab) (snd ab)) (combine u v).
(** RBF_kern.py:103-121 [cov] *)
Definition rbf_cov (sigma l noise : R) (X Y : list point) : result matrix :=
  let cov := pairwise (rbf_call sigma l) X Y in                                           (* lines 113-118 *)
  if Nat.eqb (length X) (length Y) then                                                   (* line 119 *)
    do x0 <- getitem X 0; do y0 <- getitem Y 0;
    Ok (if point_eqb x0 y0 then add_eye noise cov else cov)
  else Ok cov.
Definition map2 (f : R -> R -> R) (a b : list R) : list R := map (fun xy : R * R => f (fst xy) (snd xy)) (combine a b).
Definition mat2 (f : R -> R -> R) (A B : matrix) : matrix := map (fun ab : list R * list R => map2 f (fst ab) (snd ab)) (combine A B).
(** RBF_kern_zeroed.py:81-93 [zero_cov]: outer product of the covariances with the zero point *)
Definition zero_cov (sigma l noise : R) (z : point) (X Y : list point) : result matrix :=
  do cov_x <- rbf_cov sigma l noise X [z];
  do cov_y <- rbf_cov sigma l noise [z] Y;
  do row_y <- getitem cov_y 0;
  Ok (map (fun row => map (fun cy => hd 0 row * cy / (sigma * sigma)) row_y) cov_x).
(** the [cov] methods: LinearKern.py:108-123, PeriodicKern.py:71-89, RBF_kern_zeroed.py:65-79, KernelFunc.py:190-199 *)
Fixpoint kcov (k : kern) (X Y : list point) : result matrix :=
  match k with
  | RBF s l n => rbf_cov s l n X Y
  | Lin s sb c => Ok (pairwise (lin_call s sb c) X Y)
  | Per s l p => Ok (pairwise (per_call s l p) X Y)
  | ZRBF s l n z =>
      do x0 <- getitem X 0;                                                               (* line 66 *)
      do cov <- rbf_cov s l n X Y;
      do cz <- zero_cov s l n (zero_of z x0) X Y;
      Ok (mat2 Rminus cov cz)
  | KAdd a b => do A <- kcov a X Y; do B <- kcov b X Y; Ok (mat2 Rplus A B)
  | KMul a b => do A <- kcov a X Y; do B <- kcov b X Y; Ok (mat2 Rmult A B)
  end.

(** [get_param]: RBF_kern.py:66-68, LinearKern.py:69-71, PeriodicKern.py:101-103, KernelFunc.py:203-207 *)
Fixpoint kparam (k : kern) : list R :=
  match k with
  | RBF s l _ | ZRBF s l _ _ => [s; l]
  | Lin s sb c => [s; sb; c]
  | Per s l p => [s; l; p]
  | KAdd a b | KMul a b => kparam a ++ kparam b
  end.
(** [set_param]: RBF_kern.py:59-61, LinearKern.py:62-65, PeriodicKern.py:94-97; KernelFunc.py:157-161 (the second
    definition of the method is the one in force); entries beyond the ones used are ignored *)
Fixpoint kset (k : kern) (theta : list R) : result kern :=
  match k with
  | RBF _ _ n => do s <- getitem theta 0; do l <- getitem theta 1; Ok (RBF s l n)
  | ZRBF _ _ n z => do s <- getitem theta 0; do l <- getitem theta 1; Ok (ZRBF s l n z)
  | Lin _ _ _ => do s <- getitem theta 0; do sb <- getitem theta 1; do c <- getitem theta 2; Ok (Lin s sb c)
  | Per _ _ _ => do s <- getitem theta 0; do l <- getitem theta 1; do p <- getitem theta 2; Ok (Per s l p)
  | KAdd a b => let n := length (kparam a) in
                do a' <- kset a (firstn n theta); do b' <- kset b (skipn n theta); Ok (KAdd a' b')
  | KMul a b => let n := length (kparam a) in
                do a' <- kset a (firstn n theta); do b' <- kset b (skipn n theta); Ok (KMul a' b')
  end.
(** [__len__]: RBF_kern.py:177-178, LinearKern.py:163-164, PeriodicKern.py:190-191, KernelFunc.py:253-254 *)
Fixpoint klen (k : kern) : nat :=
  match k with
  | RBF _ _ _ | ZRBF _ _ _ _ => 2
  | Lin _ _ _ | Per _ _ _ => 3
  | KAdd a b | KMul a b => klen a + klen b
  end.

(** ---- gradients ---- *)
(** RBF_kern.py:157-166 *)
Definition rbf_grad (s l : R) (u v : point) : list R :=
  let top := sqdist u v in
  let exp_x := exp (- top / (2 * l * l)) in
  [2 * s * exp_x; 2 * s * s * top * exp_x / (l * l * l)].
(** LinearKern.py:152-158 *)
Definition lin_grad (s sb c : R) (u v : point) : list R :=
  [rsum (map (fun ab : R * R => 2 * s * (fst ab - c) * (snd ab - c)) (combine u v)); 2 * sb;
   s * s * rsum (map (fun ab : R * R => 2 * c - fst ab - snd ab) (combine u v))].
(** PeriodicKern.py:168-181 *)
Definition per_grad (s l p : R) (u v : point) : list R :=
  let uv := l1dist u v in
  let sin_tmp := sin (PI * uv / p) in
  let exp_x := exp (- 2 * sin_tmp * sin_tmp / (l * l)) in
  [2 * s * exp_x; - 2 * s * s * exp_x * uv / (l * l * l);
   2 * PI * s * s * uv * exp_x * cos (PI * uv / p) / (l * l * p * p)].
(** [gradient]: KernelFunc.py:209-219; RBF_kern_zeroed.py:127-138 calls the super object, which raises *)
Fixpoint kgrad (k : kern) (u v : point) : result (list R) :=
  match k with
  | RBF s l _ => Ok (rbf_grad s l u v)
  | Lin s sb c => Ok (lin_grad s sb c u v)
  | Per s l p => Ok (per_grad s l p u v)
  | ZRBF _ _ _ _ => Raise TypeError                                                       (* line 136 *)
  | KAdd a b => do ga <- kgrad a u v; do gb <- kgrad b u v; Ok (ga ++ gb)
  | KMul a b => do ga <- kgrad a u v; do gb <- kgrad b u v;
                Ok (map (fun g => g * kcall b u v) ga ++ map (fun g => g * kcall a u v) gb)
  end.

(** [cov_gradient] returns either a python tuple of matrices or a numpy array (stack of matrices) *)
Inductive gradval : Type := GTuple (l : list matrix) | GArray (l : list matrix).
Definition mats (g : gradval) : list matrix := match g with GTuple l | GArray l => l end.
(** [g * M] with a matrix: a tuple is converted to an array *)
Definition gmul (g : gradval) (M : matrix) : gradval := GArray (map (fun G => mat2 Rmult G M) (mats g)).
(** [g + h]: tuples are concatenated, everything else is added entrywise; stacks of different lengths do not broadcast (no
    kernel has exactly one parameter) *)
Definition gadd (g h : gradval) : result gradval :=
  match g, h with
  | GTuple a, GTuple b => Ok (GTuple (a ++ b))
  | _, _ => if Nat.eqb (length (mats g)) (length (mats h))
            then Ok (GArray (map (fun ab : matrix * matrix => mat2 Rplus (fst ab) (snd ab)) (combine (mats g) (mats h))))
            else Raise ValueError
  end.
(** PeriodicKern.py:138-165: the exponent is the one of the RBF kernel *)
Definition per_cov_grad (s l p : R) (X Y : list point) : gradval :=
  let exp_x u v := exp (- sqdist u v / (2 * l * l)) in
  GTuple [pairwise (fun u v => 2 * s * exp_x u v) X Y;
          pairwise (fun u v => - 2 * s * s * exp_x u v * l1dist u v / (l * l * l)) X Y;
          pairwise (fun u v => 2 * PI * s * s * l1dist u v * exp_x u v * cos (PI * l1dist u v / p) / (l * l * p * p)) X Y].
(** RBF_kern.py:130-154 *)
Definition rbf_cov_grad (s l : R) (X Y : list point) : list matrix :=
  [pairwise (fun u v => nth 0 (rbf_grad s l u v) 0) X Y; pairwise (fun u v => nth 1 (rbf_grad s l u v) 0) X Y].
(** RBF_kern_zeroed.py:103-124, one parameter: gradient minus product rule (not divided by sigma^2) *)
Definition zero_cov_grad (s l n : R) (i : nat) (z : point) (X Y : list point) : result matrix :=
  do cov_x <- rbf_cov s l n X [z];
  do cov_y <- rbf_cov s l n [z] Y;
  do row_y <- getitem cov_y 0;
  let gx := map (fun x => nth i (rbf_grad s l x z) 0) X in
  let gy := map (fun y => nth i (rbf_grad s l z y) 0) Y in
  Ok (map (fun gr : R * list R => map (fun cg : R * R => fst gr * fst cg + hd 0 (snd gr) * snd cg) (combine row_y gy)) (combine gx cov_x)).
Fixpoint kcov_grad (k : kern) (X Y : list point) : result gradval :=
  match k with
  | RBF s l _ => Ok (GTuple (rbf_cov_grad s l X Y))
  | Lin s sb c =>                                                                         (* LinearKern.py:132-149 *)
      Ok (GTuple [pairwise (fun u v => 2 * s * rsum (map (fun ab : R * R => (fst ab - c) * (snd ab - c)) (combine u v))) X Y;
                  pairwise (fun _ _ => 2 * sb) X Y;
                  pairwise (fun u v => s * s * rsum (map (fun ab : R * R => 2 * c - fst ab - snd ab) (combine u v))) X Y])
  | Per s l p => Ok (per_cov_grad s l p X Y)
  | ZRBF s l n z =>
      do x0 <- getitem X 0;
      do z0 <- zero_cov_grad s l n 0 (zero_of z x0) X Y;
      do z1 <- zero_cov_grad s l n 1 (zero_of z x0) X Y;
      match rbf_cov_grad s l X Y with
      | [d0; d1] => Ok (GTuple [mat2 Rminus d0 z0; mat2 Rminus d1 z1])
      | _ => Raise ValueError
      end
  | KAdd a b => do ga <- kcov_grad a X Y; do gb <- kcov_grad b X Y; gadd ga gb            (* KernelFunc.py:228-238 *)
  | KMul a b => do ga <- kcov_grad a X Y; do B <- kcov b X Y;
                do gb <- kcov_grad b X Y; do A <- kcov a X Y;
                gadd (gmul ga B) (gmul gb A)
  end.

(** ---- priors on the parameters ---- *)
(** sums of log densities, minus infinity is [None] *)
Definition oplus (a b : option R) : option R := match a, b with Some x, Some y => Some (x + y) | _, _ => None end.
(** [param_likli]: RBF_kern.py:74-76 (shapes and scales of lines 52-55), LinearKern.py:77-80 (53-58), PeriodicKern.py:118-121
    (53-58), KernelFunc.py:170-171; [g] is the gamma function *)
Fixpoint kprior (g : R -> R) (k : kern) : option R :=
  match k with
  | RBF s l _ | ZRBF s l _ _ => oplus (log_pdf_gamma g s 10 (1/10)) (log_pdf_gamma g l 3 (4/10))
  | Lin s sb c => oplus (oplus (log_pdf_gamma g s 4 (25/100)) (log_pdf_gamma g sb 3 (2/10))) (log_pdf_gamma g c 2 (5/10))
  | Per s l p => oplus (oplus (log_pdf_gamma g s 4 (25/100)) (log_pdf_gamma g l 3 (2/10))) (log_pdf_gamma g p 2 (5/10))
  | KAdd a b | KMul a b => oplus (kprior g a) (kprior g b)
  end.
(** [grad_param_likli]: RBF_kern.py:81-83, LinearKern.py:85-88, PeriodicKern.py:126-129, KernelFunc.py:176-177 *)
Fixpoint kprior_grad (k : kern) : list R :=
  match k with
  | RBF s l _ | ZRBF s l _ _ => [d_log_pdf_gamma s 10 (1/10); d_log_pdf_gamma l 3 (4/10)]
  | Lin s sb c => [d_log_pdf_gamma s 4 (25/100); d_log_pdf_gamma sb 3 (2/10); d_log_pdf_gamma c 2 (5/10)]
  | Per s l p => [d_log_pdf_gamma s 4 (25/100); d_log_pdf_gamma l 3 (2/10); d_log_pdf_gamma p 2 (5/10)]
  | KAdd a b | KMul a b => kprior_grad a ++ kprior_grad b
  end.
