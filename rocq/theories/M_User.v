(** Model of the synthetic users: /repo/src/lop/utilities/synthetic_user.py and HumanChoiceUser2.py.  A utility is any
    function from arrays to arrays ([M_Fake]); random draws and the results of [scipy.optimize.minimize_scalar] are arguments. *)
From Coq Require Import Qround.
From Verif Require Import M_Base M_RBase M_Fake M_Util M_Pairs M_Select M_Sampling M_Normal.
Local Open Scope R_scope.

(** synthetic_user.py:16-17 *)
Definition sigmoid (k b x : R) : R := 1 / (1 + exp (- (k * x + b))).

(** the entries of an array in row-major order, as used by [np.argmax], [np.max] and [np.min] without axis *)
Definition flatten (a : arr) : list R :=
  match a with
  | Scal x => [x]
  | PList l | Vec l => l
  | Mat m => concat m
  | Tens t => concat (concat t)
  end.

(** synthetic_user.py:61-64 [PerfectUser.choose] *)
Definition perfect_choose (f : arr -> result arr) (q : arr) : result nat :=
  do y <- f q; argmax Rltb (flatten y).

(** synthetic_user.py:40-43 [choose_pairs] for a query matrix, on top of any [choose] *)
Definition choose_pairs (choose : arr -> result nat) (q : list (list R)) : result (list pair) :=
  do best <- choose (Mat q); Ok (gen_pairs_from_idx best (seq 0 (length q))).

(** synthetic_user.py:71-74 [PerfectUser.rate] *)
Definition perfect_rate (f : arr -> result arr) (q : arr) : result arr :=
  do y <- f q; Ok (amap (sigmoid 4 0) y).

(** the fields of HumanChoiceUser (synthetic_user.py:83-95) *)
Record huser := { hu_f : arr -> result arr; hu_beta : R; hu_sigma : R; hu_bot : R; hu_top : R; hu_k : R; hu_b : R }.
(** synthetic_user.py:83-95 [HumanChoiceUser.__init__] *)
Definition huser_init (f : arr -> result arr) (beta sigma bot top : R) : huser :=
  {| hu_f := f; hu_beta := beta; hu_sigma := sigma; hu_bot := bot; hu_top := top; hu_k := 4; hu_b := 0 |}.

(** [(self.fake_f(x) * self.k) + self.b] (synthetic_user.py:209, 240, 258, 270) *)
Definition scaled (u : huser) (q : arr) : result arr :=
  do y <- hu_f u q; Ok (amap (fun v => v * hu_k u + hu_b u) y).

(** synthetic_user.py:257-261 [HumanChoiceUser.rate] of one option; [z] is the standard normal draw behind
    [np.random.normal(loc=y, scale=sigma)] *)
Definition human_rate (u : huser) (z : R) (q : arr) : result arr :=
  do y <- scaled u q; Ok (amap (fun v => sigmoid 1 0 (v + hu_sigma u * z)) y).

(** synthetic_user.py:269-274 [HumanChoiceUser.choose]; [d] is the uniform draw of [sample_human_choice].  Utilities whose
    value is not a vector are not modelled. *)
Definition human_choose (u : huser) (d : R) (q : arr) : result nat :=
  do y <- scaled u q;
  match y with Vec v => sample_human_choice v (hu_beta u) d | _ => Raise GenericException end.

(** HumanChoiceUser2.py:55-64 [get_k_b] of the utility values [f]; equal extremes divide by zero, which numpy answers with
    inf or nan: [None] *)
Definition get_k_b (bot top : R) (f : list R) : result (option (R * R)) :=
  let min_sigmoid := ln bot - ln (1 - bot) in                               (* line 56 *)
  let max_sigmoid := ln top - ln (1 - top) in                               (* line 57 *)
  do f_max <- np_max f;
  do f_min <- np_min f;
  if Req_EM_T f_max f_min then Ok None
  else let k := (max_sigmoid - min_sigmoid) / (f_max - f_min) in            (* line 61 *)
       Ok (Some (k, min_sigmoid - k * f_min)).                              (* lines 62, 64 *)

(** synthetic_user.py:174-193, the calibration part of [HumanChoiceUser.learn_beta]: k and b are computed from the utilities
    of [rewards] (lines 179-189) and then overwritten (lines 191-192) *)
Definition learn_k_b (u : huser) (rewards : arr) : result huser :=
  do y <- hu_f u rewards;
  do kb <- get_k_b (hu_bot u) (hu_top u) (flatten y);                       (* lines 179-189: same formulas *)
  let u1 := match kb with
            | Some (k, b) => {| hu_f := hu_f u; hu_beta := hu_beta u; hu_sigma := hu_sigma u; hu_bot := hu_bot u;
                                hu_top := hu_top u; hu_k := k; hu_b := b |}
            | None => u
            end in
  Ok {| hu_f := hu_f u1; hu_beta := hu_beta u1; hu_sigma := hu_sigma u1; hu_bot := hu_bot u1; hu_top := hu_top u1;
        hu_k := 4; hu_b := 0 |}.                                            (* lines 191-192 *)

(** HumanChoiceUser2.py:121-125, the end of its [learn_beta]: the calibration is kept *)
Definition learn_k_b2 (u : huser) (min_max : list R) : result huser :=
  do kb <- get_k_b (hu_bot u) (hu_top u) min_max;
  Ok match kb with
     | Some (k, b) => {| hu_f := hu_f u; hu_beta := hu_beta u; hu_sigma := hu_sigma u; hu_bot := hu_bot u;
                         hu_top := hu_top u; hu_k := k; hu_b := b |}
     | None => u
     end.

(** synthetic_user.py:211-224 and 242-253, the retry loop of [learn_sigma] and [learn_beta_pairwise]: [res i] is the i-th
    result (x, fun) of [minimize_scalar].  Returns the value stored in the field. *)
Fixpoint tune_loop (res : nat -> R * R) (n i : nat) : R * R :=
  match n with
  | 0%nat => res i                                                          (* the last iteration *)
  | S n' => if Rltb (snd (res i)) (2/100) then res i else tune_loop res n' (S i)
  end.
Definition tune (res : nat -> R * R) : result R :=
  let r := tune_loop res 9 0 in                                             (* 10 tries *)
  if Rltb (2/100) (snd r) then Raise GenericException else Ok (fst r).
(** synthetic_user.py:198-199: beta is tuned before sigma, each is stored at once.  The returned user is the object after
    the call, together with the exception if there was one. *)
Definition learn_tunings (u : huser) (res_beta res_sigma : nat -> R * R) : huser * option exn :=
  let set_beta x := {| hu_f := hu_f u; hu_beta := x; hu_sigma := hu_sigma u; hu_bot := hu_bot u; hu_top := hu_top u;
                       hu_k := hu_k u; hu_b := hu_b u |} in
  match tune res_beta with
  | Raise e => (u, Some e)
  | Ok x =>
      let u1 := set_beta x in
      match tune res_sigma with
      | Raise e => (u1, Some e)
      | Ok s => ({| hu_f := hu_f u1; hu_beta := hu_beta u1; hu_sigma := s; hu_bot := hu_bot u1; hu_top := hu_top u1;
                    hu_k := hu_k u1; hu_b := hu_b u1 |}, None)
      end
  end.

(** synthetic_user.py:158-163 [sample_Qs]: the number of queries; [c] is [comb(rewards.shape[0], Q_size)] *)
Definition num_Q (c : Z) : Z :=
  let half := (inject_Z c * (1 # 2))%Q in
  let n := if Qlt_bool (inject_Z 60000) half then inject_Z 60000 else half in     (* line 159 *)
  let n := if Qlt_bool n (inject_Z 30) then inject_Z (Z.min 30 c) else n in       (* lines 160-161 *)
  Qfloor n.                                                                (* line 162, non-negative *)
(** synthetic_user.py:158-165 [sample_Qs]; [math.comb] is a parameter here *)
Definition sample_Qs (fuel : nat) (draws : nat -> list nat) (comb : nat -> nat -> nat) (n Q_size : nat)
  : result (list (list nat)) :=
  sample_unique_sets fuel draws n (Z.to_nat (num_Q (Z.of_nat (comb n Q_size)))) Q_size.

(** HumanChoiceUser2.py:96-104: the row of [F] that receives problem [j] of environment [i]; [lens] are the numbers of
    problems of the environments *)
Definition f_row (lens : list nat) (i j : nat) : result nat :=
  do l0 <- getitem lens 0;
  Ok (i * l0 + j)%nat.
(** HumanChoiceUser2.py:87-104: the assignments [F[f_idx, idx] = ...] of one utility function, as the list of row contents
    ([None]: uninitialised memory of [np.empty]); [data i j] is the sampled utility vector *)
Definition fill_F {A} (lens : list nat) (data : nat -> nat -> A) : result (list (option A)) :=
  do l0 <- getitem lens 0;
  let n := (length lens * l0)%nat in
  fold_left (fun (acc : result (list (option A))) ij =>
               do F <- acc;
               do idx <- f_row lens (fst ij) (snd ij);
               if Nat.ltb idx n then Ok (set_nth idx (Some (data (fst ij) (snd ij))) F) else Raise IndexError)
    (concat (map (fun il => map (fun j => (fst il, j)) (seq 0 (snd il))) (enumerate lens)))
    (Ok (repeat None n)).

(** [np.nanmean]: mean of the entries that are not nan ([None]); nan when there are none *)
Definition nanmean (l : list (option R)) : option R :=
  let v := concat (map (fun o => match o with Some x => [x] | None => [] end) l) in
  match v with [] => None | _ => Some (rsum v / INR (length v)) end.

(** HumanChoiceUser2.py:28-33: the mean choice probability [obj_sum] inside [obj] (overflow of [exp] is not modelled) *)
Definition obj_mean (b : R) (diffs : list R) : option R :=
  nanmean (map (fun d => let eb := exp (Rabs d * b) in
                         let l := eb / (1 + eb) in
                         if Rltb l (50000001 / 100000000) then None else Some l) diffs).
(** HumanChoiceUser2.py:28-37 [obj] *)
Definition obj (b : R) (diffs : list R) (p : R) : option R :=
  match obj_mean b diffs with Some m => Some ((m - p) * (m - p)) | None => None end.

(** HumanChoiceUser2.py:39-48: the mean [avg] inside [rate_obj] *)
Definition rate_mean (sigma : R) (diffs : list R) : option R :=
  nanmean (map (fun d => let d' := Rabs d in
                         if Req_EM_T d' 0 then None else Some (ndtr (d' * (1 / (sqrt 2 * sigma))))) diffs).
(** HumanChoiceUser2.py:39-49 [rate_obj] *)
Definition rate_obj (sigma : R) (diffs : list R) (p : R) : option R :=
  match rate_mean sigma diffs with Some m => Some ((m - p) * (m - p)) | None => None end.
