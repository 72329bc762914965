(** Model of the hyper-parameter vectors: /repo/src/lop/models/PreferenceModel.py (get_hyper, set_hyper, hyper_liklihood,
    grad_hyper_liklihood), PreferenceGP.py (the same plus randomize_hyper) and the three probits of /repo/src/lop/probits.
    Only the three standard probits of PreferenceModel.py:48 are modelled ([other_probits] is left out). *)
From Verif Require Import M_RBase M_Util M_Kernel.
Local Open Scope R_scope.

(** PreferenceProbit.py:49-57 *)
Record pref_probit := mkPref { p_sigma : R; p_opt : bool }.
(** OrdinalProbit.py:54-59; [o_b] are the breakpoints without the two infinities of lines 83-87 *)
Record ord_probit := mkOrd { o_n : nat; o_sigma : R; o_b : list R }.
(** AbsBoundProbit.py:126-140 *)
Record abs_probit := mkAbs { a_sigma : R; a_v : R; a_opt : bool; a_v_only : bool }.

(** PreferenceProbit.py:63-65 [set_hyper] and 69-73 [get_hyper] *)
Definition pref_set (p : pref_probit) (x : list R) : result pref_probit :=
  if p_opt p then (do s <- getitem x 0; Ok (mkPref s (p_opt p))) else Ok p.
Definition pref_get (p : pref_probit) : list R := if p_opt p then [p_sigma p] else [].
(** [np.linspace(0, b, n)] *)
Definition linspace0 (b : R) (n : nat) : list R :=
  match n with 0%nat => [] | 1%nat => [0] | _ => map (fun i => INR i * b / INR (n - 1)) (seq 0 n) end.
(** OrdinalProbit.py:80-83 [set_b] of a number and 84-87 of a vector without infinities *)
Definition ord_set_b (o : ord_probit) (b : R) : ord_probit := mkOrd (o_n o) (o_sigma o) (linspace0 (Rabs b) (o_n o - 1)).
Definition ord_set_bs (o : ord_probit) (bs : list R) : result ord_probit :=
  if Nat.eqb (length bs) (o_n o - 1) then Ok (mkOrd (o_n o) (o_sigma o) bs) else Raise ValueError.
(** OrdinalProbit.py:64-66 [set_hyper] *)
Definition ord_set (o : ord_probit) (x : list R) : result ord_probit :=
  do s <- getitem x 0; do b <- getitem x 1; Ok (ord_set_b (mkOrd (o_n o) s (o_b o)) b).
(** OrdinalProbit.py:69-74 [get_hyper]: [b[-2]] is the last finite breakpoint (n_ordinals >= 2) *)
Definition ord_get (o : ord_probit) : list R := [o_sigma o; last (o_b o) 0].
(** AbsBoundProbit.py:147-153 and 157-164 *)
Definition abs_set (a : abs_probit) (x : list R) : result abs_probit :=
  if a_opt a then
    if a_v_only a then (do v <- getitem x 0; Ok (mkAbs (a_sigma a) v (a_opt a) (a_v_only a)))
    else (do v <- getitem x 1; do s <- getitem x 0; Ok (mkAbs s v (a_opt a) (a_v_only a)))
  else Ok a.
Definition abs_get (a : abs_probit) : list R :=
  if a_opt a then (if a_v_only a then [a_v a] else [a_sigma a; a_v a]) else [].

(** the part of a model that holds hyper-parameters; [h_rel], [h_ord], [h_abs] say whether y_train[i] is not None;
    [h_kern = None]: PreferenceLinear, which inherits the methods of PreferenceModel *)
Record hmodel := mkH { h_rel : bool; h_ord : bool; h_abs : bool; h_p : pref_probit; h_o : ord_probit; h_a : abs_probit;
                       h_only_probit : bool; h_kern : option kern }.

(** PreferenceModel.py:323-329 *)
Definition probit_hyper (m : hmodel) : list R :=
  (if h_rel m then pref_get (h_p m) else []) ++ (if h_ord m then ord_get (h_o m) else []) ++ (if h_abs m then abs_get (h_a m) else []).
(** PreferenceModel.py:336-345: every probit with data gets the next part of the vector, as long as its own get_hyper *)
Definition set_probit_hyper (m : hmodel) (x : list R) : result hmodel :=
  let n0 := if h_rel m then length (pref_get (h_p m)) else 0%nat in
  let n1 := if h_ord m then length (ord_get (h_o m)) else 0%nat in
  let n2 := length (abs_get (h_a m)) in
  do p <- if h_rel m then pref_set (h_p m) (firstn n0 x) else Ok (h_p m);
  do o <- if h_ord m then ord_set (h_o m) (firstn n1 (skipn n0 x)) else Ok (h_o m);
  do a <- if h_abs m then abs_set (h_a m) (firstn n2 (skipn (n0 + n1) x)) else Ok (h_a m);
  Ok (mkH (h_rel m) (h_ord m) (h_abs m) p o a (h_only_probit m) (h_kern m)).
(** PreferenceGP.py:455-465 [get_hyper] *)
Definition get_hyper (m : hmodel) : list R :=
  match h_kern m with
  | Some k => if h_only_probit m then probit_hyper m else probit_hyper m ++ kparam k
  | None => probit_hyper m
  end.
(** PreferenceGP.py:472-479 [set_hyper] *)
Definition set_hyper (m : hmodel) (x : list R) : result hmodel :=
  match h_kern m with
  | None => set_probit_hyper m x
  | Some k =>
      let n := length (probit_hyper m) in
      do m' <- set_probit_hyper m (firstn n x);
      if h_only_probit m then Ok m'
      else (do k' <- kset k (skipn n x); Ok (mkH (h_rel m) (h_ord m) (h_abs m) (h_p m') (h_o m') (h_a m') (h_only_probit m) (Some k')))
  end.

(** ---- randomize_hyper ---- *)
(** the gamma draws of one call, one for every parameter that has a prior: PreferenceProbit.py:78-83,
    AbsBoundProbit.py:168-176, RBF_kern.py:89-92, LinearKern.py:93-97, PeriodicKern.py:108-112 *)
Record draws := mkDraws { d_p : R; d_as : R; d_av : R; d_k : list R }.
(** samples of a probit, whether it has data or not; the ordinal probit has none (ProbitBase.py:97-98) *)
Definition pref_samples (p : pref_probit) (d : draws) : list R := if p_opt p then [d_p d] else [].
Definition abs_samples (a : abs_probit) (d : draws) : list R := if a_v_only a then [d_av d] else [d_as d; d_av d].
(** a kernel draws one sample per parameter; combinations inherit the empty sample of KernelFunc.py:86-87 *)
Definition kern_samples (k : kern) (d : draws) : list R :=
  match k with KAdd _ _ | KMul _ _ => [] | _ => firstn (length (kparam k)) (d_k d) end.
(** PreferenceGP.py:483-494 [randomize_hyper] *)
Definition randomize_hyper (m : hmodel) (d : draws) : result hmodel :=
  match h_kern m with
  | None => Raise AttributeError                                          (* not a method of PreferenceLinear *)
  | Some k =>
      let probit_samples := pref_samples (h_p m) d ++ [] ++ abs_samples (h_a m) d in
      do m1 <- if h_only_probit m then set_hyper m probit_samples else Ok m;
      set_hyper m1 (probit_samples ++ kern_samples k d)
  end.

(** ---- prior of the hyper-parameters ---- *)
(** PreferenceProbit.py:152-159, AbsBoundProbit.py:181-194, ProbitBase.py:87-88; [None] is minus infinity *)
Definition pref_prior (p : pref_probit) : option R := if p_opt p then (if Rleb (p_sigma p) 0 then Some (-5000) else Some 0) else Some 0.
Definition abs_prior (g : R -> R) (a : abs_probit) : option R :=
  if a_opt a then
    let L_v := if Rltb (a_v a) 0 then -5000 else 0 in
    if a_v_only a then Some L_v else oplus (log_pdf_gamma g (a_sigma a) 1 1) (Some L_v)
  else Some 0.
(** PreferenceModel.py:354-360 and PreferenceGP.py:497-503 [hyper_liklihood]; the ordinal probit contributes 0 *)
Definition hyper_likelihood (g : R -> R) (m : hmodel) : option R :=
  let pl := oplus (oplus (if h_rel m then pref_prior (h_p m) else Some 0) (Some 0)) (if h_abs m then abs_prior g (h_a m) else Some 0) in
  match h_kern m with Some k => if h_only_probit m then pl else oplus (kprior g k) pl | None => pl end.
(** PreferenceProbit.py:164-169, AbsBoundProbit.py:199-208, ProbitBase.py:93-94 *)
Definition pref_prior_grad (p : pref_probit) : list R := if p_opt p then [0] else [].
Definition abs_prior_grad (a : abs_probit) : list R :=
  if a_opt a then (if a_v_only a then [0] else [d_log_pdf_gamma (a_sigma a) 1 1; d_log_pdf_gamma (a_v a) 2 25]) else [].
(** PreferenceModel.py:362-368 and PreferenceGP.py:505-513 [grad_hyper_liklihood] *)
Definition grad_hyper_likelihood (m : hmodel) : list R :=
  let pg := (if h_rel m then pref_prior_grad (h_p m) else []) ++ [] ++ (if h_abs m then abs_prior_grad (h_a m) else []) in
  match h_kern m with Some k => if h_only_probit m then pg else pg ++ kprior_grad k | None => pg end.
