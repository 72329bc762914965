(** Model of the assignments that [set_param] makes before it fails (/repo/src/lop/kernels) and of [visualize_hyperparameter]
    (/repo/src/lop/models/PreferenceGP.py).  In M_Kernel a failing [kset] has no kernel; here the object is kept. *)
From Coq Require Import Reals List.
From Verif Require Import M_RBase M_Util M_Kernel M_Hyper.
Import ListNotations.
Local Open Scope R_scope.

(** statements [self.f1 = theta[i]; self.f2 = theta[i+1]; ...] run in order on the values [old] of the fields: the fields afterwards and
    whether an index was out of range (RBF_kern.py:60-61, LinearKern.py:63-65, PeriodicKern.py:95-97) *)
Fixpoint assign (old theta : list R) (i : nat) : list R * option exn :=
  match old with
  | [] => ([], None)
  | x :: rest =>
      match nth_error theta i with
      | None => (x :: rest, Some IndexError)
      | Some v => let r := assign rest theta (S i) in (v :: fst r, snd r)
      end
  end.
(** the fields of the object after the assignments, back in the kernel; only lists of the right length arise *)
Definition with_fields (k : kern) (l : list R) : kern :=
  match k, l with
  | RBF _ _ n, [s; l] => RBF s l n
  | ZRBF _ _ n z, [s; l] => ZRBF s l n z
  | Lin _ _ _, [s; sb; c] => Lin s sb c
  | Per _ _ _, [s; l; p] => Per s l p
  | _, _ => k
  end.
(** [set_param]: RBF_kern.py:59-61, LinearKern.py:62-65, PeriodicKern.py:94-97, KernelFunc.py:157-161 (the second part is reached only if
    the first did not fail): the object afterwards and the exception *)
Fixpoint kassign (k : kern) (theta : list R) : kern * option exn :=
  match k with
  | KAdd a b => let n := length (kparam a) in
                let r := kassign a (firstn n theta) in
                match snd r with
                | Some e => (KAdd (fst r) b, Some e)
                | None => let q := kassign b (skipn n theta) in (KAdd (fst r) (fst q), snd q)
                end
  | KMul a b => let n := length (kparam a) in
                let r := kassign a (firstn n theta) in
                match snd r with
                | Some e => (KMul (fst r) b, Some e)
                | None => let q := kassign b (skipn n theta) in (KMul (fst r) (fst q), snd q)
                end
  | _ => let r := assign (kparam k) theta 0 in (with_fields k (fst r), snd r)
  end.

(** the first entry of [np.logspace(0.01, 1.0, 50)], PreferenceGP.py:657-658, 681 *)
Definition first_log : R := Rpower 10 (1 / 100).
(** PreferenceGP.py:656-694 of a Gaussian-process model with the kernel [k]: [before] is the outcome of lines 663-665 (derivatives and
    predictions, which may fail); then the first round of the two loops sets the kernel (line 688) and the comparison probit (line 689) and
    calls [hyperparameter_obj] without its argument [bounds] (lines 346, 693).  Values: the model afterwards and the exception; [None]:
    the picture is drawn. *)
Definition visualize (m : hmodel) (k : kern) (before : option exn) : hmodel * option exn :=
  let with_kern p k' := mkH (h_rel m) (h_ord m) (h_abs m) p (h_o m) (h_a m) (h_only_probit m) (Some k') in
  match before with
  | Some e => (with_kern (h_p m) k, Some e)
  | None =>
      let r := kassign k [1 / 2; first_log] in
      match snd r with
      | Some e => (with_kern (h_p m) (fst r), Some e)
      | None => (with_kern (mkPref first_log (p_opt (h_p m))) (fst r), Some TypeError)
      end
  end.
