(** Model of the synthetic utility functions of /repo/src/lop/utilities/FakeFunction.py.  Random draws are arguments;
    floating point numbers are real numbers. *)
From Verif Require Import M_Base M_RBase.
Local Open Scope R_scope.

(** the values passed to and returned by [calc] (FakeFunction.py:34): a python number, a python list of numbers, and numpy
    arrays of one, two and three dimensions (given by their rows).  Other inputs are not modelled. *)
Inductive arr : Type :=
| Scal (x : R)
| PList (l : list R)
| Vec (l : list R)
| Mat (m : list (list R))
| Tens (t : list (list (list R))).

(** [isinstance(rewards, list)] then [np.array(rewards)] (FakeFunction.py:57-58, 82-83, 117-118, 146-147) *)
Definition np_array (a : arr) : arr := match a with PList l => Vec l | _ => a end.

(** a function applied to every entry by numpy (FakeFunction.py:60, 85, 119, 123) *)
Definition amap (f : R -> R) (a : arr) : arr :=
  match a with
  | Scal x => Scal (f x)
  | PList l => PList (map f l)
  | Vec l => Vec (map f l)
  | Mat m => Mat (map (map f) m)
  | Tens t => Tens (map (map (map f)) t)
  end.

(** entrywise combination of two lists of equal length, the longer one is cut (callers check the lengths) *)
Fixpoint zipw {A B C} (f : A -> B -> C) (l : list A) (l' : list B) : list C :=
  match l, l' with x :: m, y :: m' => f x y :: zipw f m m' | _, _ => [] end.

(** numpy broadcasting along one axis (FakeFunction.py:60, 151, 152, 206, 320): equal lengths, or one length is 1 *)
Definition bzip {A B C} (f : A -> B -> C) (l : list A) (l' : list B) : result (list C) :=
  if Nat.eqb (length l) (length l') then Ok (zipw f l l')
  else match l, l' with
       | [x], _ => Ok (map (f x) l')
       | _, [y] => Ok (map (fun x => f x y) l)
       | _, _ => Raise ValueError
       end.

(** [np.dot] of two vectors (FakeFunction.py:63, 89, 121) *)
Definition vdot (l w : list R) : result R :=
  if Nat.eqb (length l) (length w) then Ok (rsum (zipw Rmult l w)) else Raise ValueError.

(** [np.dot(rewards, w)] with a vector [w] (FakeFunction.py:63, 89, 121): contracts the last axis *)
Definition adot (a : arr) (w : list R) : result arr :=
  match a with
  | Scal x => Ok (Vec (map (Rmult x) w))
  | PList l | Vec l => do v <- vdot l w; Ok (Scal v)
  | Mat m => do v <- mapM (fun r => vdot r w) m; Ok (Vec v)
  | Tens t => do v <- mapM (mapM (fun r => vdot r w)) t; Ok (Mat v)
  end.

(** [rewards * w] with a vector [w] (FakeFunction.py:60, 151, 152, 206): broadcast along the last axis *)
Definition amul (a : arr) (w : list R) : result arr :=
  match a with
  | Scal x => Ok (Vec (map (Rmult x) w))
  | PList _ => Raise TypeError                       (* not reached: lists are converted or rejected before *)
  | Vec l => do v <- bzip Rmult l w; Ok (Vec v)
  | Mat m => do v <- mapM (fun r => bzip Rmult r w) m; Ok (Mat v)
  | Tens t => do v <- mapM (mapM (fun r => bzip Rmult r w)) t; Ok (Tens v)
  end.

(** FakeFunction.py:51-53 and 76-78: weights from the draws of [np.random.random] *)
Definition sum_weights (u : list R) : list R := map (fun x => x / rsum u) u.

(** [np.linalg.norm(w, ord=np.inf)] of a vector (FakeFunction.py:142, 169): the largest magnitude, 0 for no entries
    (numpy raises) *)
Definition norm_inf (u : list R) : R := fold_right (fun x m => Rmax (Rabs x) m) 0 u.
(** [np.linalg.norm(w, ord=1)] of a vector (FakeFunction.py:193) *)
Definition norm_1 (u : list R) : R := rsum (map Rabs u).
(** FakeFunction.py:140-142, 167-169 *)
Definition inf_weights (u : list R) : list R := map (fun x => x / norm_inf u) u.
(** FakeFunction.py:191-193 *)
Definition l1_weights (u : list R) : list R := map (fun x => x / norm_1 u) u.

(** FakeFunction.py:55-63 [FakeLinear.calc] *)
Definition linear_calc (w : list R) (a : arr) : result arr :=
  match w with
  | [w0] =>
      match np_array a with
      | Scal x => Ok (Scal (x * w0))                                        (* line 62 *)
      | a' => amul a' [w0]                                                  (* line 60 *)
      end
  | _ => adot a w                                                           (* line 63 *)
  end.

(** [rewards*rewards] (FakeFunction.py:85, 87, 89): python lists cannot be multiplied *)
Definition asquare (a : arr) : result arr :=
  match a with PList _ => Raise TypeError | _ => Ok (amap (fun x => x * x) a) end.

(** FakeFunction.py:80-89 [FakeSquared.calc] *)
Definition squared_calc (w : list R) (a : arr) : result arr :=
  match w with
  | [w0] => do s <- asquare (np_array a); Ok (amap (fun x => x * w0) s)     (* lines 81-87 *)
  | _ => do s <- asquare a; adot s w                                        (* line 89 *)
  end.

(** the parameters of FakeLogistic (FakeFunction.py:102-113); A = 0, K = C = 1 are constants *)
Record logistic := { lg_w : list R; lg_Q : R; lg_M : R; lg_v : R }.
(** FakeFunction.py:102-113 [FakeLogistic.randomize] from its draws *)
Definition logistic_random (u : list R) (q m v : R) : logistic :=
  {| lg_w := map (fun x => x * (3/2)) u; lg_Q := (q * 2) * (q * 2) + 12/10; lg_M := m * (3/2); lg_v := v + 2 |}.

(** FakeFunction.py:123; [**] of the positive number [exp(-wx)] is [Rpower] *)
Definition logistic_val (L : logistic) (wx : R) : R :=
  0 + (1 - 0) / (1 + lg_Q L * Rpower (exp (- wx)) (1 / lg_v L)).

(** FakeFunction.py:115-124 [FakeLogistic.calc] *)
Definition logistic_calc (L : logistic) (a : arr) : result arr :=
  do wx <- match lg_w L with
           | [w0] => Ok (amap (fun x => x * w0) (np_array a))               (* lines 116-119 *)
           | w => do d <- adot a w; Ok (amap (fun x => x - lg_M L) d)       (* line 121 *)
           end;
  Ok (amap (logistic_val L) wx).

(** [np.max(m, axis=0)] of one matrix, used for [axis=1] of a three dimensional array (FakeFunction.py:152, 179) *)
Definition col_reduce (f : R -> R -> R) (m : list (list R)) : result (list R) :=
  match m with [] => Raise ValueError | r :: m' => Ok (fold_left (zipw f) m' r) end.

(** FakeFunction.py:150-152 (and 177-179) after the conversion: [np.max]/[np.min] of [rewards * w].  [red] is the reduction
    of a vector, [f] the binary maximum or minimum. *)
Definition reduce_last (red : list R -> result R) (f : R -> R -> R) (a : arr) (w : list R) : result arr :=
  match a with
  | Scal _ | PList _ => Raise AttributeError                                (* no [shape] *)
  | Vec l => do v <- bzip Rmult l w; do r <- red v; Ok (Scal r)             (* line 151 *)
  | Mat m => do v <- mapM (fun r => bzip Rmult r w) m; do r <- mapM red v; Ok (Vec r)            (* line 152 *)
  | Tens t => do v <- mapM (mapM (fun r => bzip Rmult r w)) t;
              do r <- mapM (col_reduce f) v; Ok (Mat r)                     (* line 152: axis 1 is not the last axis *)
  end.

(** FakeFunction.py:144-152 [FakeWeightedMax.calc] and 171-179 [FakeWeightedMin.calc] *)
Definition extreme_calc (red : list R -> result R) (f : R -> R -> R) (w : list R) (a : arr) : result arr :=
  match w with
  | [w0] => match a with
            | PList l => reduce_last red f (Vec l) w                        (* lines 146-147, then 151 *)
            | _ => Ok a                                                     (* line 149 *)
            end
  | _ => reduce_last red f a w
  end.
(** FakeFunction.py:144-152 *)
Definition wmax_calc : list R -> arr -> result arr := extreme_calc np_max Rmax.
(** FakeFunction.py:171-179 *)
Definition wmin_calc : list R -> arr -> result arr := extreme_calc np_min Rmin.

(** FakeFunction.py:198-208 [FakeSquaredMinMax.calc] for at most two dimensions; [np.sqrt] of a negative number is nan in
    numpy and [sqrt] is 0 there, callers keep to non-negative rewards *)
Definition sqminmax_calc (w : list R) (a : arr) : result arr :=
  let body (a : arr) :=
    match a with
    | Scal _ | PList _ => Raise AttributeError
    | Vec l => do v <- bzip Rmult l w; do r <- np_max v; Ok (Scal r)        (* line 205 *)
    | Mat m => do vals <- mapM (fun r => bzip Rmult r w) m;                 (* line 206 *)
               do mins <- mapM np_min vals;                                 (* line 207 *)
               do maxs <- mapM np_max vals;
               Ok (Vec (zipw (fun x n => sqrt x + n * n) maxs mins))        (* line 208 *)
    | Tens _ => Raise GenericException                                      (* not modelled *)
    end in
  match w with
  | [_] => match a with PList l => body (Vec l) | _ => Ok a end             (* lines 199-203 *)
  | _ => body a
  end.

(** array addition with broadcasting (FakeFunction.py:320); shapes other than those listed do not occur there *)
Definition aadd (a b : arr) : result arr :=
  match a, b with
  | Scal x, _ => Ok (amap (Rplus x) b)
  | Vec l, Vec l' => do v <- bzip Rplus l l'; Ok (Vec v)
  | Mat m, Mat m' =>
      do v <- bzip (fun r r' => bzip Rplus r r') m m';
      do v' <- mapM (fun x => x) v; Ok (Mat v')
  | Tens t, Tens t' => if Nat.eqb (length t) (length t')
      then do v <- mapM (fun p => do q <- bzip (fun r r' => bzip Rplus r r') (fst p) (snd p); mapM (fun x => x) q) (combine t t');
           Ok (Tens v)
      else Raise ValueError
  | _, _ => Raise ValueError
  end.

(** FakeFunction.py:316-320 [FakeMinLog.calc]; [wmin] are the weights of its FakeWeightedMin *)
Definition minlog_calc (alpha : R) (wmin : list R) (L : logistic) (a : arr) : result arr :=
  do m_f <- wmin_calc wmin a;
  do l_f <- logistic_calc L a;
  aadd (amap (Rmult alpha) m_f) (amap (Rmult (1 - alpha)) l_f).

(** FakeFunction.py:262-274 [FakeMixtureGaussian.calc] for one reward vector (1-dimensional array) and for a batch;
    [dens x] stands for the list of the kernel densities at [x] ([multivariate_normal.pdf], lines 270-272) *)
Definition mixture_calc (dens : list R -> list R) (a : arr) : result arr :=
  match a with
  | Vec l => Ok (Vec (map (fun _ => rsum (dens l)) l))                      (* line 266: zeros of length rewards.shape[0] *)
  | Mat m => Ok (Vec (map (fun r => rsum (dens r)) m))
  | _ => Raise GenericException                                             (* not modelled *)
  end.
