(** Model of [cov_gradient] for arrays of plain numbers: RBF_kern.py:130-154, LinearKern.py:132-149, PeriodicKern.py:138-165,
    RBF_kern_zeroed.py:103-124, KernelFunc.py:228-240 in /repo/src/lop/kernels.  Arrays and broadcasting are those of M_OneD. *)
From Verif Require Import M_Base M_RBase M_Kernel M_OneD.
Local Open Scope R_scope.

(** RBF_kern.py:130-154 *)
Definition rbf_grad_arr (s l : R) (X Y : arr R) : result (list matrix) :=
  do XY <- bcast X Y; Ok (rbf_cov_grad s l (fst XY) (snd XY)).
(** RBF_kern_zeroed.py:111-122, one parameter; [self.zero_pt[np.newaxis,:]] is one row *)
Definition zero_grad_arr (s l n : R) (i : nat) (z : point) (X Y : arr R) : result matrix :=
  let Z := Arr2 (length z) [z] in
  do cov_x <- rbf_cov_arr s l n X Z;
  do cov_y <- rbf_cov_arr s l n Z Y;
  do row_y <- getitem cov_y 0;
  do gx <- rbf_grad_arr s l X Z;
  do gy <- rbf_grad_arr s l Z Y;
  let gx_i := map (hd 0) (nth i gx []) in
  let gy_i := hd [] (nth i gy []) in
  Ok (map (fun gr : R * list R => map (fun cg : R * R => fst gr * fst cg + hd 0 (snd gr) * snd cg) (combine row_y gy_i)) (combine gx_i cov_x)).
(** KernelFunc.py:228-240 and the files above: the kernel object afterwards and the value, as in [kcov_arr].  The first argument is the
    kernel as it was before the call: the calls on the parts change their zero points, and the recursion follows the unchanged tree. *)
Fixpoint kgrad_at (t k : kern) (X Y : arr R) : kern * result gradval :=
  match k with
  | RBF s l _ => (k, do g <- rbf_grad_arr s l X Y; Ok (GTuple g))
  | Lin _ _ _ | Per _ _ _ => (k, do XY <- bcast X Y; kcov_grad k (fst XY) (snd XY))
  | ZRBF s l n z =>
      match lazy_zero z X with                                                 (* RBF_kern_zeroed.py:104 *)
      | Raise e => (k, Raise e)
      | Ok z' => (ZRBF s l n (Some z'),
                  do g <- rbf_grad_arr s l X Y;                                (* line 106 *)
                  do z0 <- zero_grad_arr s l n 0 z' X Y;
                  do z1 <- zero_grad_arr s l n 1 z' X Y;
                  match g with
                  | [d0; d1] => Ok (GTuple [mat2 Rminus d0 z0; mat2 Rminus d1 z1])
                  | _ => Raise ValueError
                  end)
      end
  | KAdd a b =>                                                                (* KernelFunc.py:229-231 *)
      match t with KAdd ta tb =>
      let '(a', ga) := kgrad_at ta a X Y in
      match ga with
      | Raise e => (KAdd a' b, Raise e)
      | Ok ga => let '(b', gb) := kgrad_at tb b X Y in (KAdd a' b', do gb <- gb; gadd ga gb)
      end
      | _ => (k, Raise OutOfFuel) end
  | KMul a b =>                                                                (* KernelFunc.py:232-234 *)
      match t with KMul ta tb =>
      let '(a1, ga) := kgrad_at ta a X Y in
      match ga with
      | Raise e => (KMul a1 b, Raise e)
      | Ok ga =>
          let '(b1, B) := kcov_arr b X Y in
          match B with
          | Raise e => (KMul a1 b1, Raise e)
          | Ok B =>
              let '(b2, gb) := kgrad_at tb b1 X Y in
              match gb with
              | Raise e => (KMul a1 b2, Raise e)
              | Ok gb => let '(a2, A) := kcov_arr a1 X Y in (KMul a2 b2, do A <- A; gadd (gmul ga B) (gmul gb A))
              end
          end
      end
      | _ => (k, Raise OutOfFuel) end
  end.
(** KernelFunc.py:228-240 *)
Definition kgrad_arr (k : kern) (X Y : arr R) : kern * result gradval := kgrad_at k k X Y.
(** calls of [cov] and [cov_gradient] on one kernel object (KernelFunc.py:190-199, 228-240), exceptions caught by the caller *)
Inductive kcall_op : Type := CallCov (X Y : arr R) | CallGrad (X Y : arr R).
Fixpoint kops (k : kern) (calls : list kcall_op) : list (result matrix + result gradval) :=
  match calls with
  | [] => []
  | CallCov X Y :: calls' => let '(k', M) := kcov_arr k X Y in inl M :: kops k' calls'
  | CallGrad X Y :: calls' => let '(k', g) := kgrad_arr k X Y in inr g :: kops k' calls'
  end.
