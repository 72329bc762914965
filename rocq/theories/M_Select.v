(** Model of the candidate selection of /repo/src/lop/active_learning/ActiveLearner.py (lines 42-300) and of the learners
    BestLearner.py, UCBLearner.py, GV_UCBLearner.py, RandomLearner.py.

    A python set of indices is a duplicate-free list.  The iteration order of a python set is unspecified: wherever the
    code writes [list(some_set)] the model applies an arbitrary enumeration function.  The predicted values [mu] and
    everything else that depends on the fitted model are arguments; the greedy and pair choices of a learner are
    functions of the number of the call, of the index set offered and of the set of points already selected. *)
From Verif Require Import M_Base M_Pareto.

(** python [set(l)], [A - B], [A | B], [A.remove(x)] *)
Definition set_of (l : list nat) : list nat := nodup Nat.eq_dec l.
Definition diff (A B : list nat) : list nat := filter (fun x => negb (mem x B)) A.
Definition union (A B : list nat) : list nat := A ++ diff (set_of B) A.
Definition set_remove (x : nat) (A : list nat) : result (list nat) :=
  if mem x A then Ok (remove_first x A) else Raise KeyError.

(** The [prefer_pts] argument of [select] *)
Inductive prefer : Type :=
| PrefNone                       (* None *)
| PrefSet (s : list nat)         (* a set *)
| PrefList (l : list nat)        (* a list *)
| PrefPareto                     (* 'pareto' *)
| PrefInt (z : Z)                (* an int *)
| PrefOther.                     (* anything else *)

(** the call [set(get_pareto(candidate_pts))] of line 197; the loop of get_pareto needs at most one more round than
    there are rows (theorem C05), so the fuel never runs out *)
Definition pareto_set (cand : list row) : result (list nat) :=
  match get_pareto (S (length cand)) cand with Some l => Ok (set_of l) | None => Raise OutOfFuel end.

(** ActiveLearner.py:189-206 [get_prefered_set_of_pts] *)
Definition get_prefered_set_of_pts (default_to_pareto : bool) (cand : list row) (p : prefer) : result (list nat) :=
  match p with
  | PrefSet s => Ok (set_of s)
  | PrefList l => Ok (set_of l)
  | PrefNone => if default_to_pareto then pareto_set cand else Ok (seq 0 (length cand))
  | PrefPareto => pareto_set cand
  | PrefInt z =>
      if (z =? 0)%Z then Ok (seq 0 (length cand))
      else if (z <? 0)%Z then Raise ValueError
      else Ok (seq 0 (Z.to_nat z))
  | PrefOther => Raise ValueError
  end.

(** [np.argmax]: position of the first maximum with respect to the strict comparison [ltb]; ValueError when empty *)
Fixpoint argmax_from {A} (ltb : A -> A -> bool) (best : A) (besti i : nat) (l : list A) : nat :=
  match l with
  | [] => besti
  | x :: l' => if ltb best x then argmax_from ltb x i (S i) l' else argmax_from ltb best besti (S i) l'
  end.
Definition argmax {A} (ltb : A -> A -> bool) (l : list A) : result nat :=
  match l with [] => Raise ValueError | x :: l' => Ok (argmax_from ltb x 0 1 l') end.

(** the idiom [indicies = list(indicies); return indicies[np.argmax(scores[indicies])]] of BestLearner.py:44-49 and of the
    other learners; [ls] is the enumeration of the set, [score] may raise IndexError *)
Definition pick_extreme {A} (ltb : A -> A -> bool) (score : nat -> result A) (ls : list nat) : result nat :=
  do vs <- mapM score ls;
  do k <- argmax ltb vs;
  getitem ls k.

(** A learner object: [max_num_alts] when the class defines it (line 76), [always_select_best], [default_to_pareto], its
    [select_greedy], its [select_pair] when it has one, and the order in which [list(set)] enumerates in select_best *)
Record learner := mkLearner {
  l_max : option nat;
  l_best : bool;
  l_pareto : bool;
  l_greedy : nat -> list nat -> list nat -> result nat;
  l_pair : option (nat -> list nat -> list nat -> result (nat * nat));
  l_enum : list nat -> list nat }.

(** ActiveLearner.py:75-78 *)
Definition num_alts_of (L : learner) (n : nat) : nat :=
  match l_max L with None => n | Some m => Nat.min n m end.

(** ActiveLearner.py:213-228 [select_best] *)
Definition select_best (L : learner) (mu : list Q) (prefer_pts prev : list nat) : result nat :=
  let p0 := diff prefer_pts prev in
  let p1 := match p0 with [] => diff (seq 0 (length mu)) prev | _ => p0 end in
  match p1 with
  | [] => Raise GenericException
  | _ => pick_extreme Qlt_bool (getitem mu) (l_enum L p1)
  end.

(** ActiveLearner.py:142-170, the loop of the branch return_not_selected=False.  [n] is num_alts, [N] the number of
    candidates, [k] counts the calls of the learner, [pref] is pref_not_sel and [allo] is all_not_selected. *)
Fixpoint sel_loop (L : learner) (pair_first : bool) (n N : nat) (prev : list nat)
    (fuel k : nat) (pref : list nat) (allo : option (list nat)) (sel : list nat) : result (list nat) :=
  if n <=? length sel then Ok sel else
  match fuel with
  | 0 => Raise OutOfFuel
  | S fuel' =>
      let P := union prev sel in
      let pair := if pair_first && (length sel =? 0) then l_pair L else None in
      match pref with
      | _ :: _ =>                                                        (* lines 144-154 *)
          match pair with
          | Some f =>
              do ab <- f k pref P;
              sel_loop L pair_first n N prev fuel' (S k)
                (remove_first (snd ab) (remove_first (fst ab) pref)) allo (sel ++ [fst ab; snd ab])
          | None =>
              do i <- l_greedy L k pref P;
              do pref' <- set_remove i pref;
              sel_loop L pair_first n N prev fuel' (S k) pref' allo (sel ++ [i])
          end
      | [] =>                                                            (* lines 155-168 *)
          let al := match allo with None => diff (diff (seq 0 N) prev) sel | Some a => a end in
          match al with
          | [] => Raise GenericException
          | _ :: _ =>
              match pair with
              | Some f =>
                  do ab <- f k al P;
                  do al1 <- set_remove (fst ab) al;
                  do al2 <- set_remove (snd ab) al1;
                  sel_loop L pair_first n N prev fuel' (S k) pref (Some al2) (sel ++ [fst ab; snd ab])
              | None =>
                  do i <- l_greedy L k al P;
                  do al' <- set_remove i al;
                  sel_loop L pair_first n N prev fuel' (S k) pref (Some al') (sel ++ [i])
              end
          end
      end
  end.

(** ActiveLearner.py:74-97, the part common to both branches: preferred points, previous selection, first selection *)
Definition sel_start (L : learner) (cand : list row) (mu : list Q) (prev0 : list nat) (p : prefer)
  : result (list nat * list nat * list nat) :=
  do prefer_pts <- get_prefered_set_of_pts (l_pareto L) cand p;
  let prev := set_of prev0 in
  if l_best L && (length prev =? 0) then
    do b <- select_best L mu prefer_pts prev;
    Ok (diff prefer_pts [b], [b], [b])
  else Ok (diff prefer_pts prev, prev, []).

(** ActiveLearner.py:74-172 [select] with return_not_selected=False *)
Definition select (L : learner) (cand : list row) (mu : list Q) (num_alts : nat) (prev0 : list nat) (p : prefer)
    (pair_first : bool) : result (list nat) :=
  let n := num_alts_of L num_alts in
  do st <- sel_start L cand mu prev0 p;
  let '(pref, prev, sel) := st in
  sel_loop L pair_first n (length cand) prev n 0 pref None sel.

(** lines 127-132: put a chosen index into the selection or into the not-selected list *)
Definition place (pref notsel sel : list nat) (i : nat) : list nat * list nat * list nat :=
  if mem i pref || (length pref =? 0) then (remove_first i pref, notsel, sel ++ [i]) else (pref, notsel ++ [i], sel).

(** ActiveLearner.py:103-132, the loop of the branch return_not_selected=True *)
Fixpoint ns_loop (L : learner) (pair_first : bool) (n : nat) (prev : list nat)
    (fuel k : nat) (pref al notsel sel : list nat) : result (list nat * list nat) :=
  if (n <=? length sel) || (length al =? 0) then Ok (sel, notsel) else
  match fuel with
  | 0 => Raise OutOfFuel
  | S fuel' =>
      let P := union prev sel in
      match pref, notsel with
      | [], i :: notsel' =>                                              (* lines 106-108 *)
          let '(pref', notsel'', sel') := place pref notsel' sel i in
          ns_loop L pair_first n prev fuel' (S k) pref' (remove_first i al) notsel'' sel'
      | _, _ =>
          match (if (length prev =? 0) && pair_first && (1 <? n - length sel) then l_pair L else None) with
          | Some f =>                                                    (* lines 110-120 *)
              do ab <- f k pref P;
              let '(pref1, notsel1, sel1) := place pref notsel sel (snd ab) in
              let '(pref2, notsel2, sel2) := place pref1 notsel1 sel1 (fst ab) in
              ns_loop L pair_first n prev fuel' (S k) pref2 (remove_first (fst ab) (remove_first (snd ab) al)) notsel2 sel2
          | None =>                                                      (* line 122 *)
              do i <- l_greedy L k al P;
              let '(pref', notsel', sel') := place pref notsel sel i in
              ns_loop L pair_first n prev fuel' (S k) pref' (remove_first i al) notsel' sel'
          end
      end
  end.

(** ActiveLearner.py:74-137 [select] with return_not_selected=True; [fuel] bounds the loop *)
Definition select_ns (L : learner) (cand : list row) (mu : list Q) (num_alts : nat) (prev0 : list nat) (p : prefer)
    (pair_first : bool) (fuel : nat) : result (list nat * list nat) :=
  let n := num_alts_of L num_alts in
  do st <- sel_start L cand mu prev0 p;
  let '(pref, prev, sel) := st in
  do r <- ns_loop L pair_first n prev fuel 0 pref (diff (diff (seq 0 (length cand)) prev) sel) [] sel;
  if length (fst r) =? n then Ok r else Raise GenericException.                  (* lines 134-137 *)

(** ---- concrete learners ---- *)
(** BestLearner.py:43-49; [enum k] is the iteration order of the set in the k-th call *)
Definition best_greedy (enum : nat -> list nat -> list nat) (mu : list Q) : nat -> list nat -> list nat -> result nat :=
  fun k idx _ => pick_extreme Qlt_bool (getitem mu) (enum k idx).
(** BestLearner.py:64-70 [WorstLearner]: argmin *)
Definition worst_greedy (enum : nat -> list nat -> list nat) (mu : list Q) : nat -> list nat -> list nat -> result nat :=
  fun k idx _ => pick_extreme (fun x y => Qlt_bool y x) (getitem mu) (enum k idx).
(** RandomLearner.py:39-42; [draw k] is the raw random number of the k-th call *)
Definition random_greedy (enum : nat -> list nat -> list nat) (draw : nat -> nat) : nat -> list nat -> list nat -> result nat :=
  fun k idx _ =>
    let ls := enum k idx in
    match ls with [] => Raise ValueError | _ => getitem ls (draw k mod length ls) end.
(** the common shape of UCBLearner.py:67-72, GV_UCBLearner.py:55-71 and other learners: the maximum of a score that may
    depend on the points selected so far *)
Definition score_greedy {A} (ltb : A -> A -> bool) (enum : nat -> list nat -> list nat)
    (score : list nat -> nat -> result A) : nat -> list nat -> list nat -> result nat :=
  fun k idx P => pick_extreme ltb (score P) (enum k idx).

(** ---- pairs from a metric ---- *)
(** entry of the metric after [np.fill_diagonal(info_gain, -np.inf)] (line 272); [None] is -inf; [k] is a flat index *)
Definition metric_at (N : nat) (m : nat -> nat -> Q) (k : nat) : option Q :=
  if k / N =? k mod N then None else Some (m (k / N) (k mod N)).
(** [!=] on entries (line 280) *)
Definition oQ_eqb (a b : option Q) : bool :=
  match a, b with None, None => true | Some x, Some y => Qeq_bool x y | _, _ => false end.
(** lines 277-281: the number of leading entries found equal, at most N-1; [srt] is [sorted] *)
Fixpoint num_same_from (N : nat) (m : nat -> nat -> Q) (srt : list nat) (first : option Q) (fuel i : nat) : nat :=
  match fuel with
  | 0 => pred i
  | S fuel' =>
      match nth_error srt i with
      | None => i
      | Some k => if oQ_eqb (metric_at N m k) first then num_same_from N m srt first fuel' (S i) else i
      end
  end.
Definition num_same (N : nat) (m : nat -> nat -> Q) (srt : list nat) : nat :=
  match srt with [] => 0 | k :: _ => num_same_from N m srt (metric_at N m k) N 0 end.
(** lines 293-298: the first pair in sorted order that is not entirely selected already, else the last one *)
Fixpoint first_fresh (N : nat) (prev srt : list nat) (last : nat) : nat :=
  match srt with
  | [] => last
  | k :: srt' => if mem (k / N) prev && mem (k mod N) prev then first_fresh N prev srt' k else k
  end.
(** ActiveLearner.py:269-300 [pick_pair_from_metric]; [srt] is the result of the argsort of line 274 (reversed), whose order
    among ties is unspecified; [draw] is the raw random number of line 288, where randint(0, 0) raises ValueError *)
Definition pick_pair_from_metric (N : nat) (m : nat -> nat -> Q) (prev srt : list nat) (draw : nat) : result (nat * nat) :=
  let s := num_same N m srt in
  if s =? 0 then Raise ValueError
  else
    do k <- getitem srt (draw mod s);
    let k' := if mem (k / N) prev && mem (k mod N) prev then first_fresh N prev srt k else k in
    Ok (k' / N, k' mod N).
