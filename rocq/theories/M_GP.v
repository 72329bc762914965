(** Model of /repo/src/lop/models/GP.py and of [predict] and [predict_large] in /repo/src/lop/models/PreferenceGP.py.
    Arithmetic is over the reals.  The library routines [np.linalg.cholesky] and [scipy.linalg.cho_solve] are modelled by the textbook
    algorithms; the pseudo-inverse is an argument of the model. *)
From Verif Require Export M_RBase M_Kernel.
From Verif Require Import M_Fake M_Acq.
Local Open Scope R_scope.

(** matrices and vectors as functions of their indices *)
Definition mat : Type := nat -> nat -> R.
Definition vec : Type := nat -> R.
Definition mat_at (M : matrix) (i j : nat) : R := nth j (nth i M []) 0.

(** [np.linalg.cholesky(A)] (GP.py:112, PreferenceGP.py:123), reading the lower triangle, column after column; [None] is LinAlgError *)
Fixpoint chol (n : nat) (A : mat) : option mat :=
  match n with
  | O => Some (fun _ _ => 0)
  | S n' =>
      if Rltb 0 (A 0%nat 0%nat) then
        match chol n' (fun i j => A (S i) (S j) - A (S i) 0%nat * A (S j) 0%nat / A 0%nat 0%nat) with
        | Some L => Some (fun i j => match i, j with
                                     | O, O => sqrt (A 0%nat 0%nat)
                                     | S i', O => A i 0%nat / sqrt (A 0%nat 0%nat)
                                     | O, S _ => 0
                                     | S i', S j' => L i' j'
                                     end)
        | None => None
        end
      else None
  end.
(** forward and backward substitution: [L y = b] and [L^T x = y] *)
Fixpoint fwd (n : nat) (L : mat) (b : vec) : vec :=
  match n with
  | O => fun _ => 0
  | S n' => let y0 := b 0%nat / L 0%nat 0%nat in
            let y := fwd n' (fun i j => L (S i) (S j)) (fun i => b (S i) - L (S i) 0%nat * y0) in
            fun i => match i with O => y0 | S i' => y i' end
  end.
Fixpoint bwd (n : nat) (L : mat) (y : vec) : vec :=
  match n with
  | O => fun _ => 0
  | S n' => let x := bwd n' (fun i j => L (S i) (S j)) (fun i => y (S i)) in
            fun i => match i with
                     | O => (y 0%nat - sum_to n' (fun j => L (S j) 0%nat * x j)) / L 0%nat 0%nat
                     | S i' => x i'
                     end
  end.
(** [cho_solve((L, True), b)] (GP.py:113, 115, PreferenceGP.py:125) *)
Definition cho_solve (n : nat) (L : mat) (b : vec) : vec := bwd n L (fwd n L b).

(** GP.py:47-49, 69-77: the training data; [None] as a whole is [self.X_train is None] *)
Record gp_data := { gX : list point; gy : list R; gsig : list R }.
(** the argument [training_sigma] (GP.py:65): a scalar or a python sequence *)
Inductive sigma_arg := SScalar (s : R) | SSeq (l : list R).
(** GP.py:65-78 [add]; [mean] is [mean_func] evaluated point by point, [None] the default that returns 0.  Broadcasting of arrays of
    length one against longer ones (line 69) is modelled in M_GPNoise *)
Definition gp_add (mean : option (point -> R)) (X : list point) (y : list R) (sigma : sigma_arg) (st : option gp_data)
  : result (option gp_data) :=
  let sig := match sigma with SScalar s => repeat s (length y) | SSeq l => l end in        (* lines 66-67 *)
  do y <- match mean with
          | None => Ok y
          | Some m => if Nat.eqb (length y) (length X) then Ok (zipw Rminus y (map m X)) else Raise ValueError
          end;                                                                             (* line 69 *)
  match st with
  | None => Ok (Some {| gX := X; gy := y; gsig := sig |})                                  (* lines 71-74 *)
  | Some d => Ok (Some {| gX := gX d ++ X; gy := gy d ++ y; gsig := gsig d ++ sig |})      (* lines 76-78 *)
  end.
(** GP.py:83-85 [reset] *)
Definition gp_reset (st : option gp_data) : option gp_data := None.
(** a call history *)
Inductive gp_op := GAdd (X : list point) (y : list R) (sigma : sigma_arg) | GReset.
Fixpoint gp_run (mean : option (point -> R)) (ops : list gp_op) (st : option gp_data) : result (option gp_data) :=
  match ops with
  | [] => Ok st
  | GAdd X y s :: ops' => do st' <- gp_add mean X y s st; gp_run mean ops' st'
  | GReset :: ops' => gp_run mean ops' (gp_reset st)
  end.

Definition mean_at (mean : option (point -> R)) (x : point) : R := match mean with None => 0 | Some m => m x end.
(** GP.py:104-107, [error] has the values of [training_sigma] on its diagonal (a shorter sequence is repeated by [np.fill_diagonal]) *)
Definition gp_cov (covYY : matrix) (sig : list R) : mat :=
  fun i j => mat_at covYY i j + (if Nat.eqb i j then nth (i mod length sig) sig 0 else 0).
(** GP.py:92-124 [predict]: means and variances *)
Definition gp_predict (mean : option (point -> R)) (k : kern) (st : option gp_data) (X : list point) : result (list R * list R) :=
  match st with
  | None =>
      do cov <- kcov k X X;
      Ok (map (fun _ => 0) X, map (fun i => Rmax 0 (mat_at cov i i)) (seq 0 (length X)))   (* lines 93-98 *)
  | Some d =>
      let Y := gX d in
      let n := length Y in
      do covXX <- kcov k X X;
      do covXY <- kcov k X Y;
      do covYY <- kcov k Y Y;
      match chol n (gp_cov covYY (gsig d)) with                                            (* line 112 *)
      | None => Raise LinAlgError
      | Some L =>
          if negb (Nat.eqb (length (gy d)) n) then Raise ValueError                        (* line 115 *)
          else
            let alpha := cho_solve n L (fun j => nth j (gy d) 0) in
            let mu i := sum_to n (fun j => mat_at covXY i j * alpha j) in
            let v i := cho_solve n L (fun r => mat_at covXY i r) in                        (* line 113, column i *)
            Ok (map (fun ix => mu (fst ix) + mean_at mean (snd ix)) (enumerate X),
                map (fun i => Rmax 0 (mat_at covXX i i - sum_to n (fun r => mat_at covXY i r * v i r))) (seq 0 (length X)))
      end
  end.

(** PreferenceGP.py:94-149: the optimised model: [self.X_train], [self.F], [self.W], [self.K] *)
Record pgp_data := { pX : list point; pF : list R; pW : matrix; pK : matrix }.
(** PreferenceGP.py:94-149 [predict] of an optimised (or untrained) model; [inv n A] is [invert_function].  When the Cholesky
    decomposition fails, [alpha] of line 129 is a number and the matrix product of line 134 raises ValueError. *)
Definition pgp_predict (inv : nat -> mat -> mat) (k : kern) (st : option pgp_data) (X : list point) : result (list R * list R) :=
  match st with
  | None =>
      do cov <- kcov k X X;
      Ok (map (fun _ => 0) X, map (fun i => Rmax 0 (mat_at cov i i)) (seq 0 (length X)))
  | Some d =>
      let n := length (pX d) in
      do covX <- kcov k X (pX d);                                                          (* line 117 *)
      do covTT <- kcov k X X;
      match chol n (mat_at (pK d)) with
      | None => Raise ValueError                                                           (* lines 126-134 *)
      | Some L =>
          let alpha := cho_solve n L (fun j => nth j (pF d) 0) in
          let WK a b := (if Nat.eqb a b then 1 else 0) + sum_to n (fun c => mat_at (pW d) a c * mat_at (pK d) c b) in
          let tmp := inv n WK in                                                           (* line 138 *)
          let tmp2 i b := sum_to n (fun a => mat_at covX i a * tmp a b) in
          let tmp3 b i := sum_to n (fun c => mat_at (pW d) b c * mat_at covX i c) in
          Ok (map (fun i => sum_to n (fun j => mat_at covX i j * alpha j)) (seq 0 (length X)),
              map (fun i => Rmax 0 (mat_at covTT i i - sum_to n (fun b => tmp2 i b * tmp3 b i))) (seq 0 (length X)))
      end
  end.
(** [l[lo:hi] = v] (PreferenceGP.py:174-175) for a value of the length of the slice *)
Definition set_slice {A} (l : list A) (lo hi : nat) (v : list A) : list A := firstn lo l ++ v ++ skipn hi l.
(** PreferenceGP.py:157-177 [predict_large]; [mu] and [sigma] are the uninitialised arrays of lines 167-168 *)
Fixpoint large_loop (predict : list point -> result (list R * list R)) (X : list point) (is : list nat) (mu sigma : list R)
  : result (list R * list R) :=
  match is with
  | [] => Ok (mu, sigma)
  | i :: is' =>
      let lo := (i * 15)%nat in                                                            (* line 171 *)
      let hi := Nat.min (length X) (lo + 15) in                                            (* line 172 *)
      do r <- predict (firstn (hi - lo) (skipn lo X));                                     (* line 174 *)
      large_loop predict X is' (set_slice mu lo hi (fst r)) (set_slice sigma lo hi (snd r))
  end.
Definition predict_large (predict : list point -> result (list R * list R)) (X : list point) (mu sigma : list R) : result (list R * list R) :=
  large_loop predict X (seq 0 ((length X + 14) / 15)) mu sigma.
