(** Properties C01-C04: preference_pairs.py *)
From Verif Require Import M_Base M_Pairs S_Pairs P_Pairs.

(** C01 *)
Theorem C01_get_dk : forall u v : Q,
  (get_dk u v = (-1)%Z <-> (v <= u)%Q) /\ (get_dk u v = 1%Z <-> (u < v)%Q).
Proof. exact get_dk_spec. Qed.
Print Assumptions C01_get_dk.
Example C01_get_dk_ex : get_dk (3#2) (3#2) = (-1)%Z /\ get_dk (1#2) (3#2) = 1%Z.
Proof. vm_compute. auto. Qed.

Theorem C01_ranked_truthful : forall Y p, In p (ranked_pairs_from_fake Y) -> truthful Y p.
Proof. exact ranked_truthful. Qed.
Print Assumptions C01_ranked_truthful.
Example C01_ranked_ex :
  ranked_pairs_from_fake [1#1; 2#1; 2#1]%Q = [(1%Z, 0, 1); (1%Z, 0, 2); ((-1)%Z, 1, 2)].
Proof. vm_compute. reflexivity. Qed.

Theorem C01_fake_truthful : forall Y pair_i ps,
  generate_fake_pairs Y pair_i = Ok ps -> forall p, In p ps -> truthful Y p.
Proof. exact (fun Y i ps H => proj2 (generate_fake_pairs_spec Y i ps H)). Qed.
Print Assumptions C01_fake_truthful.
Example C01_fake_ex :
  generate_fake_pairs [1#1; 2#1; 2#1]%Q 1 = Ok [((-1)%Z, 1, 0); ((-1)%Z, 1, 2)].
Proof. vm_compute. reflexivity. Qed.

Theorem C01_preference : forall u v, preference u v = ((-1)%Z, u, v).
Proof. exact (fun u v => eq_refl). Qed.
Print Assumptions C01_preference.

(** C02 *)
Theorem C02_gen_pairs : forall best l,
  gen_pairs_from_idx best l
  = map (fun i => ((-1)%Z, best, i)) (filter (fun i => negb (Nat.eqb i best)) l).
Proof. exact gen_pairs_from_idx_spec. Qed.
Print Assumptions C02_gen_pairs.
Example C02_ex : gen_pairs_from_idx 2 [4; 2; 4; 7] = [((-1)%Z,2,4); ((-1)%Z,2,4); ((-1)%Z,2,7)].
Proof. vm_compute. reflexivity. Qed.

(** C03 *)
Theorem C03_ranked_complete : forall Y,
  2 * length (ranked_pairs_from_fake Y) = length Y * (length Y - 1) /\
  NoDup (map pts (ranked_pairs_from_fake Y)) /\
  (forall u v, In (u, v) (map pts (ranked_pairs_from_fake Y)) <-> u < v < length Y).
Proof. exact (fun Y => conj (ranked_length Y) (conj (ranked_pts_NoDup 0 Y) (ranked_complete Y))). Qed.
Print Assumptions C03_ranked_complete.
Theorem C03_ranked_acyclic : forall Y, acyclic (beats (ranked_pairs_from_fake Y)).
Proof. exact ranked_acyclic. Qed.
Print Assumptions C03_ranked_acyclic.
Theorem C03_fake_complete : forall Y pair_i, pair_i < length Y ->
  exists ps, generate_fake_pairs Y pair_i = Ok ps /\
   map pts ps = map (fun i => (pair_i, i)) (filter (fun i => negb (Nat.eqb i pair_i)) (seq 0 (length Y))).
Proof.
  exact (fun Y i H => match generate_fake_pairs_total Y i H with
                      | ex_intro _ ps E => ex_intro _ ps (conj E (proj1 (generate_fake_pairs_spec Y i ps E))) end).
Qed.
Print Assumptions C03_fake_complete.
Example C03_ex : beats (ranked_pairs_from_fake [1#1; 2#1; 2#1]%Q) 1 2 /\
                 beats (ranked_pairs_from_fake [1#1; 2#1; 2#1]%Q) 2 0 /\ 1 < length [1#1; 2#1; 2#1]%Q.
Proof. vm_compute. auto 10. Qed.

(** C04: the python builds the complete list of ranking pairs and then drops it. *)
Theorem C04_ranking_refuted : forall sorted_idx, generate_ranking_pairs sorted_idx = None.
Proof. exact (fun _ => eq_refl). Qed.
Print Assumptions C04_ranking_refuted.
Theorem C04_ranking_built : forall l p,
  In p (ranking_pairs_built l) <->
  exists i j a b, i < j /\ nth_error l i = Some a /\ nth_error l j = Some b /\ p = ((-1)%Z, a, b).
Proof. exact ranking_pairs_built_In. Qed.
Print Assumptions C04_ranking_built.
Example C04_ex : generate_ranking_pairs [2; 0; 1] = None /\
  ranking_pairs_built [2; 0; 1] = [((-1)%Z,2,0); ((-1)%Z,2,1); ((-1)%Z,0,1)].
Proof. vm_compute. auto. Qed.
