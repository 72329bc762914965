(** Lemmas about the table of FakeIntegrate in any number of dimensions. *)
From Verif Require Import M_Base M_RBase M_Fake2 M_FakeDim S_Psd P_Psd P_Fake4.
From Coq Require Import Reals Lra Lia List.
Import ListNotations.
Local Open Scope R_scope.

Section Table.
Variables (dim : nat) (g : R -> R -> R).
Hypothesis Hdim : (2 <= dim)%nat.
Let body := fun (acc : result (list nat -> R)) ij => do vals <- acc; if Nat.ltb dim 2 then Raise IndexError else slab_step (fun x y => Ok (g x y)) vals ij.
Lemma body_ok vals i j : body (Ok vals) (i, j) = Ok (set_slab vals i j (fun rest => vals ((i - 1)%nat :: j :: rest) + vals (i :: (j - 1)%nat :: rest)
                                     - vals ((i - 1)%nat :: (j - 1)%nat :: rest) + g (tick i) (tick j) * grid_size)).
Proof. unfold body, slab_step. cbn [bind]. rewrite (proj2 (Nat.ltb_ge dim 2) Hdim). reflexivity. Qed.
(** rows up to [i] are done, and of row [S i] the columns up to [j] *)
Definition done (m i j : nat) (vals : list nat -> R) : Prop :=
  forall a b rest, (b <= m)%nat -> (a <= i \/ b = 0 \/ (a = S i /\ b <= j))%nat -> vals (a :: b :: rest) = integrate_vals g a b.
Lemma one_round m i j vals : (S j <= m)%nat -> done m i j vals ->
  exists v, body (Ok vals) (S i, S j) = Ok v /\ done m i (S j) v.
Proof.
  intros Hj H. eexists. split; [apply body_ok|]. intros a b rest Hb Hc. unfold set_slab.
  destruct (andb (Nat.eqb a (S i)) (Nat.eqb b (S j))) eqn:E.
  - apply Bool.andb_true_iff in E. destruct E as [Ea Eb]. apply Nat.eqb_eq in Ea, Eb. subst a b.
    replace (S i - 1)%nat with i by lia. replace (S j - 1)%nat with j by lia.
    rewrite (H i (S j)), (H (S i) j), (H i j) by lia. symmetry. apply vals_S.
  - apply H; [exact Hb|]. destruct (Nat.eq_dec a (S i)) as [->|]; [|lia]. destruct (Nat.eq_dec b (S j)) as [->|]; [|lia].
    rewrite !Nat.eqb_refl in E. discriminate.
Qed.
Lemma one_row m i vals : done m i 0 vals -> forall j, (j <= m)%nat ->
  exists v, fold_left body (map (fun b => (S i, b)) (seq 1 j)) (Ok vals) = Ok v /\ done m i j v.
Proof.
  intros H. induction j as [|j IH]; intros Hj; [exists vals; auto|]. destruct IH as [v [E D]]; [lia|].
  rewrite seq_S, map_app, fold_left_app, E. cbn [map fold_left Nat.add]. now apply one_round.
Qed.
Lemma all_rows m : forall i, exists v, fold_left body (concat (map (fun a => map (fun b => (a, b)) (seq 1 m)) (seq 1 i))) (Ok zeros_nd) = Ok v /\ done m i 0 v.
Proof.
  induction i as [|i [v [E D]]].
  - exists zeros_nd. split; [reflexivity|]. intros a b rest Hb Hc. unfold zeros_nd.
    destruct b as [|b]; [now rewrite vals_0r|]. assert (a = 0%nat) by lia. subst a. now rewrite vals_0l.
  - rewrite seq_S, map_app, concat_app, fold_left_app, E. cbn [map concat Nat.add]. rewrite app_nil_r.
    destruct (one_row m i v D m (Nat.le_refl m)) as [w [Ew Dw]]. exists w. split; [exact Ew|].
    intros a b rest Hb Hc. apply Dw; [exact Hb|lia].
Qed.
End Table.
Lemma table_nd n dim g : (2 <= dim)%nat -> exists vals, integrate_nd n dim (fun x y => Ok (g x y)) = Ok vals /\
  forall i j rest, (i < n)%nat -> (j < n)%nat -> vals (i :: j :: rest) = integrate_vals g i j.
Proof.
  intros Hd. destruct (all_rows dim g Hd (n - 1) (n - 1)) as [v [E D]]. exists v. split; [exact E|].
  intros i j rest Hi Hj. apply D; lia.
Qed.
Lemma sums_nd n dim g : (2 <= dim)%nat -> exists vals, integrate_nd n dim (fun x y => Ok (g x y)) = Ok vals /\
  forall i j rest, (i < n)%nat -> (j < n)%nat ->
    vals (i :: j :: rest) = sumn i (fun a => sumn j (fun b => g (INR (S a) * (5 / 100)) (INR (S b) * (5 / 100)))) * (5 / 100).
Proof.
  intros Hd. destruct (table_nd n dim g Hd) as [v [E D]]. exists v. split; [exact E|]. intros i j rest Hi Hj. rewrite D by assumption.
  exact (integrate_sums g i j (integrate_vals g) eq_refl).
Qed.
Lemma rounds_first n : (2 <= n)%nat -> exists l, rounds n = (1%nat, 1%nat) :: l.
Proof. intros H. destruct n as [|[|n]]; [lia|lia|]. unfold rounds. replace (S (S n) - 1)%nat with (S n) by lia. cbn [seq map concat app]. eexists. reflexivity. Qed.
Lemma raise_stays {A B} (F : A -> B -> result A) e l : fold_left (fun acc ij => do vals <- acc; F vals ij) l (Raise e) = Raise e.
Proof. induction l as [|x l IH]; [reflexivity|]. cbn [fold_left bind]. exact IH. Qed.
Lemma few_dims n dim f : (2 <= n)%nat -> (dim < 2)%nat -> integrate_nd n dim f = Raise IndexError.
Proof.
  intros Hn Hd. destruct (rounds_first n Hn) as [l E]. unfold integrate_nd. rewrite E. cbn [fold_left bind]. rewrite (proj2 (Nat.ltb_lt dim 2) Hd). apply (raise_stays (A := list nat -> R)).
Qed.
Lemma bad_function n dim f e : (2 <= n)%nat -> (2 <= dim)%nat -> f (5 / 100) (5 / 100) = Raise e -> integrate_nd n dim f = Raise e.
Proof.
  intros Hn Hd H. destruct (rounds_first n Hn) as [l E]. unfold integrate_nd. rewrite E. cbn [fold_left bind]. rewrite (proj2 (Nat.ltb_ge dim 2) Hd).
  unfold slab_step. assert (T : tick 1 = 5 / 100) by (unfold tick, grid_size; cbn [INR]; lra). rewrite T, H. cbn [bind]. apply (raise_stays (A := list nat -> R)).
Qed.
(** the volume below the constant one in three dimensions does not depend on the third coordinate *)
Lemma no_volume n : (2 <= n)%nat -> exists vals, integrate_nd n 3 (fun _ _ => Ok 1) = Ok vals /\
  vals [1%nat; 1%nat; 0%nat] = 5 / 100 /\ vals [1%nat; 1%nat; 1%nat] = 5 / 100.
Proof.
  intros Hn. destruct (sums_nd n 3 (fun _ _ => 1)) as [v [E D]]; [lia|]. exists v. split; [exact E|].
  rewrite !D by lia. unfold sumn. cbn. lra.
Qed.
