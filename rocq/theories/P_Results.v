(** Lemmas about the results file. *)
From Coq Require Import String List Lia Bool Arith.
From Verif Require Import M_Base M_Results S_Results.
From Coq Require Import List.
Import ListNotations.
Local Open Scope list_scope.

Section results.
Variable V : Type.
(** after the runs [rs] every array holds their results in its first entries *)
Definition filled (A : arrays V) (rs : list (nat -> V)) : Prop := forall a, a < 11 -> map (A a) (seq 0 (length rs)) = map (fun r => Some (r a)) rs.
Lemma save_nth (A : arrays V) n a : a < 11 -> nth_error (save A n) a = Some (map (A a) (seq 0 n)).
Proof. intro H. unfold save. do 11 (destruct a as [|a]; [reflexivity|]). lia. Qed.
Lemma assign_before (A : arrays V) r k j a : map (assign A j r k a) (seq 0 j) = map (A a) (seq 0 j).
Proof. apply map_ext_in. intros i H. apply in_seq in H. unfold assign. destruct (Nat.eqb_spec i j); [lia|reflexivity]. Qed.
Lemma filled_assign A rs r : filled A rs -> filled (assign A (length rs) r 11) (rs ++ [r]).
Proof.
  intros F a H. rewrite app_length, map_app. cbn [length]. rewrite Nat.add_1_r, seq_S, map_app, assign_before, (F a H). cbn. unfold assign. rewrite Nat.eqb_refl. destruct (Nat.ltb_spec a 11); [reflexivity|lia].
Qed.
Lemma filled_holds A rs : filled A rs -> holds (save A (length rs)) rs.
Proof. intros F a H. rewrite save_nth by exact H. now rewrite F. Qed.
Lemma seq_split n m : n <= m -> seq 0 m = seq 0 n ++ seq n (m - n).
Proof. intro H. replace m with (n + (m - n)) at 1 by lia. apply seq_app. Qed.
(** the invariant of the loop *)
Lemma loop_ok evs : forall rs (A : arrays V) file, filled A rs -> (rs = [] -> file = None) -> (rs <> [] -> exists f, file = Some f /\ holds f rs) ->
  let all := rs ++ finished evs in
  match loop (length rs) evs A file with
  | (Exited, Some f) => holds_first f all
  | (Exited, None) => False
  | (_, None) => all = []
  | (_, Some f) => all <> [] /\ holds f all
  end.
Proof.
  induction evs as [|ev evs IH]; intros rs A file F N S; cbn zeta.
  - cbn. rewrite app_nil_r. destruct rs as [|r rs]; [rewrite N by reflexivity; reflexivity|]. destruct S as [f [-> H]]; [discriminate|]. split; [discriminate|exact H].
  - destruct ev as [r| |r k|e]; cbn [loop finished].
    + specialize (IH (rs ++ [r]) (assign A (length rs) r 11) (Some (save (assign A (length rs) r 11) (Datatypes.S (length rs)))) (filled_assign _ _ _ F)).
      rewrite app_length in IH. cbn [length] in IH. rewrite Nat.add_1_r in IH. cbn zeta in IH. rewrite <- app_assoc in IH. cbn [app] in IH. apply IH.
      * intro E. now destruct rs.
      * intros _. eexists. split; [reflexivity|]. assert (H := filled_holds _ _ (filled_assign A rs r F)). rewrite app_length in H. cbn [length] in H. now rewrite Nat.add_1_r in H.
    + intros a H. rewrite app_nil_r, save_nth by exact H. rewrite (seq_split (length rs)) by lia. rewrite map_app, (F a H). eauto.
    + intros a H. rewrite app_nil_r, save_nth by exact H. rewrite (seq_split (length rs)) by lia. rewrite map_app, assign_before, (F a H). eauto.
    + rewrite app_nil_r. destruct rs as [|r rs]; [rewrite N by reflexivity; reflexivity|]. destruct S as [f [-> H]]; [discriminate|]. split; [discriminate|exact H].
Qed.
Lemma runs_ok (evs : list (event V)) :
  match runs evs with
  | (Exited, Some f) => holds_first f (finished evs)
  | (Exited, None) => False
  | (_, None) => finished evs = []
  | (_, Some f) => finished evs <> [] /\ holds f (finished evs)
  end.
Proof. apply (loop_ok evs [] (fun _ _ => None) None); [intros a _; reflexivity|reflexivity|intro H; now destruct H]. Qed.
Lemma runs_interrupted (rs : list (nat -> V)) r k rest : k <= 10 ->
  exists f, runs (map Finished rs ++ Interrupted r k :: rest) = (Exited, Some f) /\ nth_error f 10 = Some (map (fun r => Some (r 10)) rs ++ [None]).
Proof.
  intro K. assert (G : forall todo done (A : arrays V) file, filled A done -> (forall i a, length done <= i -> A a i = None) ->
    exists f, loop (length done) (map Finished todo ++ Interrupted r k :: rest) A file = (Exited, Some f) /\ nth_error f 10 = Some (map (fun r => Some (r 10)) (done ++ todo) ++ [None])).
  { induction todo as [|r' todo IH]; intros done A file F N.
    - cbn [map app loop]. eexists. split; [reflexivity|]. rewrite save_nth by lia. rewrite app_nil_r, seq_S, map_app, assign_before, F by lia. cbn. unfold assign. rewrite Nat.eqb_refl. destruct (Nat.ltb_spec 10 k); [lia|]. cbn. now rewrite N by lia.
    - cbn [map app loop]. specialize (IH (done ++ [r']) (assign A (length done) r' 11) (Some (save (assign A (length done) r' 11) (S (length done)))) (filled_assign _ _ _ F)). rewrite app_length in IH. cbn [length] in IH. rewrite Nat.add_1_r, <- app_assoc in IH. apply IH.
      intros i a H. unfold assign. destruct (Nat.eqb_spec i (length done)); [lia|]. apply N. lia. }
  apply (G rs [] (fun _ _ => None) None); [intros a _; reflexivity|reflexivity].
Qed.
End results.

Local Open Scope string_scope.
Lemma append_assoc (a b c : string) : (a ++ b) ++ c = a ++ (b ++ c).
Proof. induction a as [|x a IH]; [reflexivity|]. cbn. now rewrite IH. Qed.
Lemma append_inv (a b c : string) : a ++ b = a ++ c -> b = c.
Proof. induction a as [|x a IH]; [auto|]. cbn. intro H. injection H as H. auto. Qed.
Lemma default_inside described j : let f := folder_name "" described in inside (run_folder f j) ("results/AT_" ++ described) /\ inside (data_file f) ("results/AT_" ++ described).
Proof.
  cbv zeta. unfold folder_name. cbn [String.eqb]. change (if true then ?x else _) with x. unfold run_folder, data_file. split.
  - exists ("run_" ++ j ++ "/"). now rewrite !append_assoc.
  - exists "train_data.npz". now rewrite !append_assoc.
Qed.
Lemma slash_inside d described j : let f := folder_name (d ++ "/") described in inside (run_folder f j) ("results/" ++ d) /\ inside (data_file f) ("results/" ++ d).
Proof.
  cbv zeta. unfold folder_name. assert (E : String.eqb (d ++ "/") "" = false) by (destruct d; reflexivity). rewrite E. unfold run_folder, data_file. split.
  - exists ("run_" ++ j ++ "/"). now rewrite !append_assoc.
  - exists "train_data.npz". now rewrite !append_assoc.
Qed.
Lemma outside d described j : d <> "" -> (forall d', d <> (d' ++ "/")%string) -> let f := folder_name d described in f = "results/" ++ d /\ ~ inside (run_folder f j) f /\ ~ inside (data_file f) f.
Proof.
  intros N _. cbv zeta. unfold folder_name. destruct (String.eqb_spec d ""); [contradiction|]. split; [reflexivity|]. unfold run_folder, data_file. split; intros [rest E]; apply append_inv in E; discriminate E.
Qed.
