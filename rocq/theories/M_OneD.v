(** Model of arrays of plain numbers used as points: the examples pass 1-d numpy arrays ([np.array([0, 1, 2])]) as training points
    and candidates.  The kernels turn them into columns (RBF_kern.py:107-110, LinearKern.py:112-115, PeriodicKern.py:75-78), the
    models keep them as they are.

    An array is 1-d or 2-d with a number of columns ([Arr2 w rows], all rows of length [w]).  The kernels are the ones of M_Kernel,
    the data store is the one of M_Store with its points replaced by an array. *)
From Verif Require Import M_Base M_RBase M_Pairs M_Pareto M_Store M_Kernel M_Acq M_GP.

(** a numpy array of points: [len(X.shape) == 1] (RBF_kern.py:107) or rows *)
Inductive arr (A : Type) : Type := Arr1 (l : list A) | Arr2 (w : nat) (rows : list (list A)).
Arguments Arr1 {A} l.
Arguments Arr2 {A} w rows.

(** RBF_kern.py:107-110 [X[:,np.newaxis]] *)
Definition arr_rows {A} (X : arr A) : list (list A) := match X with Arr1 l => map (fun x => [x]) l | Arr2 _ M => M end.
(** the last axis after RBF_kern.py:107-110 *)
Definition width {A} (X : arr A) : nat := match X with Arr1 _ => 1 | Arr2 w _ => w end.
(** [len(X)], PreferenceModel.py:195 *)
Definition alen {A} (X : arr A) : nat := match X with Arr1 l => length l | Arr2 _ M => length M end.

(** [np.append(A, B, axis=0)] (PreferenceModel.py:196, GP.py:76): both arrays must have the same number of axes and columns *)
Definition aappend {A} (X Y : arr A) : result (arr A) :=
  match X, Y with
  | Arr1 a, Arr1 b => Ok (Arr1 (a ++ b))
  | Arr2 w a, Arr2 v b => if Nat.eqb w v then Ok (Arr2 w (a ++ b)) else Raise ValueError
  | _, _ => Raise ValueError
  end.

(** ---- kernels ---- *)
(** numpy broadcasting of the last axis in [X_expanded - Y_expanded] (RBF_kern.py:113-115, LinearKern.py:117-120,
    PeriodicKern.py:80-83): an axis of length one is repeated, other different lengths raise *)
Definition stretch (w : nat) (x : point) : point := match x with [a] => repeat a w | _ => x end.
Definition bcast (X Y : arr R) : result (list point * list point) :=
  if Nat.eqb (width X) (width Y) then Ok (arr_rows X, arr_rows Y)
  else if Nat.eqb (width X) 1 then Ok (map (stretch (width Y)) (arr_rows X), arr_rows Y)
  else if Nat.eqb (width Y) 1 then Ok (arr_rows X, map (stretch (width X)) (arr_rows Y))
  else Raise ValueError.
(** RBF_kern.py:103-121 [cov] *)
Definition rbf_cov_arr (s l n : R) (X Y : arr R) : result matrix :=
  do XY <- bcast X Y; rbf_cov s l n (fst XY) (snd XY).
(** RBF_kern_zeroed.py:49-54 [lazy_zero_pt_init(X[0])]: the first entry of a 1-d array is a number, the zero point is then
    [np.array([0])]; the first entry of a 2-d array is a row *)
Definition lazy_zero (z : option point) (X : arr R) : result point :=
  match z with
  | Some z => match X with
              | Arr1 l => do _ <- getitem l 0; Ok z
              | Arr2 _ M => do _ <- getitem M 0; Ok z
              end
  | None => match X with
            | Arr1 l => do _ <- getitem l 0; Ok [0%R]
            | Arr2 w M => do _ <- getitem M 0; Ok (repeat 0%R w)
            end
  end.
(** RBF_kern_zeroed.py:81-93 [zero_cov], [self.zero_pt[np.newaxis,:]] is one row *)
Definition zero_cov_arr (s l n : R) (z : point) (X Y : arr R) : result matrix :=
  do cov_x <- rbf_cov_arr s l n X (Arr2 (length z) [z]);
  do cov_y <- rbf_cov_arr s l n (Arr2 (length z) [z]) Y;
  do row_y <- getitem cov_y 0;
  Ok (map (fun row => map (fun cy => hd 0 row * cy / (s * s)) row_y)%R cov_x).
(** the [cov] methods on arrays: the kernel object afterwards (the zeroed kernel keeps the zero point of its first call) and the
    value.  LinearKern.py:108-123, PeriodicKern.py:71-89, RBF_kern_zeroed.py:65-79, KernelFunc.py:190-199 *)
Fixpoint kcov_arr (k : kern) (X Y : arr R) : kern * result matrix :=
  match k with
  | RBF s l n => (k, rbf_cov_arr s l n X Y)
  | Lin s sb c => (k, do XY <- bcast X Y; Ok (pairwise (lin_call s sb c) (fst XY) (snd XY)))
  | Per s l p => (k, do XY <- bcast X Y; Ok (pairwise (per_call s l p) (fst XY) (snd XY)))
  | ZRBF s l n z =>
      match lazy_zero z X with
      | Raise e => (k, Raise e)
      | Ok z' => (ZRBF s l n (Some z'),
                  do cov <- rbf_cov_arr s l n X Y;
                  do cz <- zero_cov_arr s l n z' X Y;
                  Ok (mat2 Rminus cov cz))
      end
  | KAdd a b => let '(a', A) := kcov_arr a X Y in
                match A with
                | Raise e => (KAdd a' b, Raise e)
                | Ok A => let '(b', B) := kcov_arr b X Y in (KAdd a' b', do B <- B; Ok (mat2 Rplus A B))
                end
  | KMul a b => let '(a', A) := kcov_arr a X Y in
                match A with
                | Raise e => (KMul a' b, Raise e)
                | Ok A => let '(b', B) := kcov_arr b X Y in (KMul a' b', do B <- B; Ok (mat2 Rmult A B))
                end
  end.
(** a history of calls of [cov] on one kernel object (KernelFunc.py:190-199), exceptions caught by the caller *)
Fixpoint kcalls (k : kern) (calls : list (arr R * arr R)) : list (result matrix) :=
  match calls with
  | [] => []
  | (X, Y) :: calls' => let '(k', M) := kcov_arr k X Y in M :: kcalls k' calls'
  end.

(** ---- GP.py ---- *)
(** GP.py:47-49, 71-78: the training data, the points as an array *)
Record agp_data := { agX : arr R; agy : list R; agsig : list R }.
(** GP.py:65-78 [add], with the default mean function *)
Definition agp_add (X : arr R) (y : list R) (sigma : sigma_arg) (st : option agp_data) : result (option agp_data) :=
  let sig := match sigma with SScalar s => repeat s (length y) | SSeq l => l end in
  match st with
  | None => Ok (Some {| agX := X; agy := y; agsig := sig |})
  | Some d => do X' <- aappend (agX d) X; Ok (Some {| agX := X'; agy := agy d ++ y; agsig := agsig d ++ sig |})
  end.
(** a call history of [add] and [reset] (GP.py:65-85); the first exception ends it *)
Fixpoint agp_run (ops : list (option (arr R * list R * sigma_arg))) (st : option agp_data) : result (option agp_data) :=
  match ops with
  | [] => Ok st
  | Some (X, y, s) :: ops' => do st' <- agp_add X y s st; agp_run ops' st'
  | None :: ops' => agp_run ops' None
  end.
(** GP.py:92-124 [predict] with the default mean function *)
Definition agp_predict (k : kern) (st : option agp_data) (X : arr R) : kern * result (list R * list R) :=
  match st with
  | None => let '(k, cov) := kcov_arr k X X in
            (k, do cov <- cov; Ok (repeat 0%R (alen X), map (fun i => Rmax 0 (mat_at cov i i)) (seq 0 (alen X))))
  | Some d =>
      let Y := agX d in
      let n := alen Y in
      let '(k, XX) := kcov_arr k X X in
      match XX with Raise e => (k, Raise e) | Ok covXX =>
      let '(k, XY) := kcov_arr k X Y in
      match XY with Raise e => (k, Raise e) | Ok covXY =>
      let '(k, YY) := kcov_arr k Y Y in
      (k, do covYY <- YY;
          match chol n (gp_cov covYY (agsig d)) with
          | None => Raise LinAlgError
          | Some L =>
              if negb (Nat.eqb (length (agy d)) n) then Raise ValueError
              else
                let alpha := cho_solve n L (fun j => nth j (agy d) 0%R) in
                Ok (map (fun i => sum_to n (fun j => mat_at covXY i j * alpha j) + 0)%R (seq 0 (alen X)),
                    map (fun i => Rmax 0 (mat_at covXX i i - sum_to n (fun r => mat_at covXY i r * cho_solve n L (fun r => mat_at covXY i r) r)))%R
                        (seq 0 (alen X)))
          end)
      end end
  end.

(** ---- PreferenceModel.py ---- *)
(** PreferenceModel.py:44-61: the points as an array, everything else in the store of M_Store (whose [sX] stays empty) *)
Record astore := { aX : option (arr Q); aL : store }.
Definition ainit (pareto_pairs : bool) : astore := {| aX := None; aL := init pareto_pairs |}.
Definition anpts (s : astore) : nat := match aX s with None => 0 | Some X => alen X end.
(** PreferenceModel.py:258-262: [np.all(x > self.X_train, axis=1)] for every new point; with 1-d points the comparison is 1-d and
    numpy raises AxisError, a subclass of ValueError, as soon as there is a new point *)
Definition apareto (all X : arr Q) (len_X : nat) : result (list pair) :=
  match all, X with
  | Arr2 _ A, Arr2 _ M => Ok (pareto_new_pairs A len_X M)
  | _, Arr1 [] | _, Arr2 _ [] => Ok []
  | _, _ => Raise ValueError
  end.
(** PreferenceModel.py:187-279 [add] *)
Definition arr_add (s : astore) (X : arr Q) (y : labels) : astore * status :=
  let len_X := anpts s in
  match (match aX s with None => Ok X | Some X0 => aappend X0 X end) with                 (* lines 191-196 *)
  | Raise e => (s, Raised e)
  | Ok X' =>
      match add_labels (aL s) len_X y with                                                (* lines 198-252 *)
      | (l, Done) =>
          if sPareto (aL s) && (1 <? alen X') then
            match apareto X' X len_X with                                                 (* lines 254-276 *)
            | Raise e => ({| aX := Some X'; aL := l |}, Raised e)
            | Ok [] => ({| aX := Some X'; aL := set_opt l false |}, Done)
            | Ok pairs => ({| aX := Some X'; aL := set_opt (append_rel l pairs) false |}, Done)
            end
          else ({| aX := Some X'; aL := set_opt l false |}, Done)                         (* line 279 *)
      | (l, st) => ({| aX := Some X'; aL := l |}, st)
      end
  end.
(** np.delete(self.X_train, idx_to_rm, axis=0), PreferenceModel.py:136 *)
Definition akeep (ps : list pair) (X : arr Q) : arr Q :=
  match X with
  | Arr1 l => Arr1 (map snd (filter (fun ir : nat * Q => mentioned ps (fst ir)) (enumerate l)))
  | Arr2 w M => Arr2 w (keep_rows ps M)
  end.
(** PreferenceModel.py:113-150 [remove_without_reference] *)
Definition aremove (s : astore) (remove_prior : bool) : astore * status :=
  match aX s with
  | None => (s, Raised AttributeError)
  | Some X =>
      match sRel (aL s) with
      | None => (s, Raised TypeError)
      | Some ps =>
          if forallb (pair_in_range (alen X)) ps then
            let X' := akeep ps X in
            let l := set_rel (aL s) (Some (map (renumber ps) ps)) in
            if remove_prior then
              match sPrior (aL s) with
              | None => ({| aX := Some X'; aL := l |}, Raised TypeError)
              | Some (a, b) => ({| aX := Some X'; aL := set_prior l (Some (a, (b - Z.of_nat (alen X - alen X'))%Z)) |}, Done)
              end
            else ({| aX := Some X'; aL := l |}, Done)
          else (s, Raised IndexError)
      end
  end.
(** PreferenceModel.py:166-169 [reset] *)
Definition areset (s : astore) : astore := {| aX := None; aL := reset (aL s) |}.
(** the calls of a user on the store (PreferenceModel.py:113-279); [add_prior] calls [add] with points in rows *)
Inductive aop : Type := AAdd (X : arr Q) (y : labels) | ARemove (remove_prior : bool) | AReset.
Definition astep (s : astore) (o : aop) : astore * status :=
  match o with AAdd X y => arr_add s X y | ARemove b => aremove s b | AReset => (areset s, Done) end.
(** a history with the way every call ended *)
Fixpoint arun (s : astore) (ops : list aop) : astore * list status :=
  match ops with
  | [] => (s, [])
  | o :: ops' => let '(s', st) := astep s o in let '(s2, sts) := arun s' ops' in (s2, st :: sts)
  end.

(** ---- PreferenceLinear.py ---- *)
(** [(X @ w[:,np.newaxis])[:,0]] (PreferenceLinear.py:61): a 1-d array with as many entries as [w] gives a 1-d product, which has
    no column *)
Definition lin_matmul (X : arr R) (w : list R) : result (list R) :=
  match X with
  | Arr1 l => if Nat.eqb (length l) (length w) then Raise IndexError else Raise ValueError
  | Arr2 d M => if Nat.eqb d (length w)
                then Ok (map (fun x => rsum (map (fun ab : R * R => fst ab * snd ab)%R (combine x w))) M) else Raise ValueError
  end.
(** PreferenceLinear.py:49-62 [predict] with the head of [optimize] (lines 69-77); [fitted] are the weights of an optimisation that is
    started, [drawn] the random ones of line 57 *)
Definition alin_predict (optimized : bool) (X_train : option (arr R)) (w fitted : list R) (drawn : nat -> list R) (X : arr R) : result (list R) :=
  match X_train with
  | Some T => if optimized then lin_matmul X w
              else match T with Arr1 _ => Raise GenericException | Arr2 _ _ => lin_matmul X fitted end
  | None => match X with Arr1 _ => Raise GenericException | Arr2 d _ => lin_matmul X (drawn d) end
  end.
(** Model.py:141-145 [SimplelestModel.predict] *)
Definition simplest_predict (X : arr R) : list R := match X with Arr1 l => l | Arr2 _ M => map rsum M end.
