(** Model of /repo/src/lop/probits/PreferenceProbit.py *)
From Verif Require Export M_Normal M_Pairs.
Local Open Scope R_scope.

(** Vectors and matrices are given by their entries; a latent vector F stands for the entries of a numpy array whose length
    exceeds all indices of the pair list (indices out of range, excluded by C18, would raise an IndexError). *)
Definition vec := nat -> R.
Definition mat := nat -> nat -> R.
Definition dk_of (p : pair) : R := IZR (fst (fst p)).
Definition u_of (p : pair) : nat := snd (fst p).
Definition v_of (p : pair) : nat := snd p.

(** PreferenceProbit.py:88-91 [set_sigma] *)
Definition isqrt2sig (s : R) : R := 1 / (s * sqrt 2).
Definition i2var (s : R) : R := isqrt2sig s ^ 2.
(** PreferenceProbit.py:106-107 [z_k], one row of y and all rows *)
Definition z_of (s : R) (F : vec) (p : pair) : R := isqrt2sig s * dk_of p * (F (v_of p) - F (u_of p)).
Definition z_k (s : R) (y : list pair) (F : vec) : list R := map (z_of s F) y.

(** PreferenceProbit.py:347-351 and 394-398 [add_up_mat], 359-363 and 405-409 [add_up_vec]: entries are accumulated *)
Definition add_vec (M : vec) (iv : nat * R) : vec := fun a => if Nat.eqb a (fst iv) then M a + snd iv else M a.
Definition add_up_vec (idx : list nat) (v : list R) (M : vec) : vec := fold_left add_vec (combine idx v) M.
Definition add_mat (M : mat) (e : (nat * nat) * R) : mat :=
  fun a b => if Nat.eqb a (fst (fst e)) && Nat.eqb b (snd (fst e)) then M a b + snd e else M a b.
Definition add_up_mat (idx : list (nat * nat)) (v : list R) (M : mat) : mat := fold_left add_mat (combine idx v) M.
(** PreferenceProbit.py:371-385 and 416-430 [add_up_W_partial] *)
Definition add_3 (M : nat -> mat) (e : (nat * nat * nat) * R) : nat -> mat :=
  fun a b c => if Nat.eqb a (fst (fst (fst e))) && Nat.eqb b (snd (fst (fst e))) && Nat.eqb c (snd (fst e)) then M a b c + snd e else M a b c.
Definition add_up_W_partial (y : list pair) (v : list R) (M : nat -> mat) : nat -> mat :=
  fold_left (fun M pw => let u := u_of (fst pw) in let v := v_of (fst pw) in let x := snd pw in
    fold_left add_3 [((u, u, u), x); ((v, u, u), - x); ((u, u, v), - x); ((v, u, v), x); ((u, v, u), - x); ((v, v, u), x); ((u, v, v), x); ((v, v, v), - x)] M)
    (combine y v) M.

(** PreferenceProbit.py:119-132 [derv_log_likelyhood] *)
Definition derv_log_likelyhood (s : R) (y : list pair) (F : vec) : vec :=
  let d := map (fun p => dk_of p * pdf_cdf_ratio (z_of s F p) * isqrt2sig s) y in
  add_up_vec (map v_of y) d (add_up_vec (map u_of y) (map Ropp d) (fun _ => 0)).
(** PreferenceProbit.py:140-148 [grad_hyper], with optimize_parameters *)
Definition grad_hyper (s : R) (y : list pair) (F : vec) : R :=
  - rsum (map (fun z => z * pdf_cdf_ratio z) (z_k s y F)) / s.
(** the four accumulations of lines 193-202 and 263-272 *)
Definition add_four (y : list pair) (d : list R) : mat :=
  add_up_mat (map (fun p => (v_of p, v_of p)) y) (map Ropp d)
    (add_up_mat (map (fun p => (v_of p, u_of p)) y) d
      (add_up_mat (map (fun p => (u_of p, v_of p)) y) d
        (add_up_mat (map (fun p => (u_of p, u_of p)) y) (map Ropp d) (fun _ _ => 0)))).
(** lines 187-188 [paren_pairs] (also 251-252) *)
Definition paren (z : R) : R := z * pdf_cdf_ratio z + pdf_cdf_ratio z ^ 2.
(** PreferenceProbit.py:183-204 [calc_W] *)
Definition calc_W (s : R) (y : list pair) (F : vec) : mat :=
  add_four y (map (fun p => - (dk_of p * dk_of p) * paren (z_of s F p) * i2var s) y).
(** PreferenceProbit.py:216-230 [calc_W_dF] *)
Definition calc_W_dF (s : R) (y : list pair) (F : vec) : nat -> mat :=
  let v := map (fun p => let z := z_of s F p in let r := pdf_cdf_ratio z in
     (r - z * z * r - 3 * z * r ^ 2 - 2 * r ^ 2 * npdf z) * (dk_of p * dk_of p * dk_of p) * (- 1 / (2 * sqrt 2 * s * s * s))) y in
  add_up_W_partial y v (fun _ _ _ => 0).
(** PreferenceProbit.py:242-277 [calc_W_dHyper], with optimize_parameters *)
Definition calc_W_dHyper (s : R) (y : list pair) (F : vec) : mat :=
  add_four y (map (fun p => let z := z_of s F p in let pdf := npdf z in let cdf := std_norm_cdf z in
     let term1 := dk_of p * dk_of p / (s * s * s) * paren z in
     let term2a := 1 / (2 * s * s * s) * dk_of p * dk_of p * z * pdf / (cdf * cdf * cdf) in
     let term2b := - (cdf * cdf) + z * z * cdf * cdf + 3 * z * pdf * cdf + 2 * pdf * pdf in
     term1 - term2a * term2b) y).
(** PreferenceProbit.py:302-307 [likelihood_all_pairs] *)
Definition likelihood_all_pairs (s : R) (F : vec) : mat := fun i j => std_norm_cdf ((F i - F j) * isqrt2sig s).
(** PreferenceProbit.py:316-318 [likelihood] *)
Definition likelihood (s : R) (y : list pair) (F : vec) : list R := map std_norm_cdf (z_k s y F).
(** PreferenceProbit.py:326-329 [log_likelihood] *)
Definition log_likelihood (s : R) (y : list pair) (F : vec) : R := rsum (map (fun z => log_ndtr (rclip (-30) 100 z)) (z_k s y F)).
