(** Proofs about COO and CSR matrices. *)
From Verif Require Import Base Num Matrix MatSpec NodeInd.

(** *** Vectors *)
Lemma set_nth_app {A} (l1 l2 : list A) x y :
  set_nth (l1 ++ x :: l2) (length l1) y = l1 ++ y :: l2.
Proof. induction l1; cbn; congruence. Qed.
Lemma set_nth_length {A} (l : list A) i x : length (set_nth l i x) = length l.
Proof. revert i; induction l; intros [|i]; cbn; auto. Qed.
Lemma set_nth_nth {A} (l : list A) i j x :
  nth_error (set_nth l i x) j = if (i =? j) && (i <? length l) then Some x else nth_error l j.
Proof.
  revert i j; induction l as [|a l IH]; intros [|i] [|j]; cbn; auto.
  - rewrite andb_false_r. reflexivity.
  - rewrite IH. reflexivity.
Qed.
Lemma vset_app {A} (l1 l2 : list A) x y :
  vset (l1 ++ x :: l2) (length l1) y = Ok (l1 ++ y :: l2).
Proof.
  unfold vset. rewrite (proj2 (Nat.ltb_lt _ _)); [|rewrite app_length; cbn; lia].
  rewrite set_nth_app. reflexivity.
Qed.
Lemma vget_ok {A} (l : list A) i : i < length l -> exists a, vget l i = Ok a /\ nth_error l i = Some a.
Proof.
  intros Hi. unfold vget. destruct (nth_error l i) eqn:E; eauto.
  apply nth_error_None in E. lia.
Qed.
Lemma vget_panic {A} (l : list A) i : length l <= i -> vget l i = Panic PIndex.
Proof. intros Hi. unfold vget. apply nth_error_None in Hi. rewrite Hi. reflexivity. Qed.
Lemma vset_ok {A} (l : list A) i x : i < length l -> vset l i x = Ok (set_nth l i x).
Proof. intros Hi. unfold vset. apply Nat.ltb_lt in Hi. rewrite Hi. reflexivity. Qed.
Lemma vset_panic {A} (l : list A) i x : length l <= i -> vset l i x = Panic PIndex.
Proof. intros Hi. unfold vset. apply Nat.ltb_ge in Hi. rewrite Hi. reflexivity. Qed.
Lemma nth_error_seq s n i : i < n -> nth_error (seq s n) i = Some (s + i).
Proof.
  revert s i; induction n as [|n IH]; intros s [|i] Hi; try lia; cbn.
  - f_equal; lia.
  - rewrite IH by lia. f_equal; lia.
Qed.
Lemma vget_map_seq {A} (f : nat -> A) n i : i < n -> vget (map f (seq 0 n)) i = Ok (f i).
Proof.
  intros Hi. unfold vget. rewrite (map_nth_error f i (seq 0 n) (nth_error_seq 0 n i Hi)). reflexivity.
Qed.
Lemma seq_split n r : r < n -> seq 0 n = seq 0 r ++ r :: seq (S r) (n - S r).
Proof.
  intros Hr. replace n with (r + S (n - S r)) at 1 by lia. rewrite seq_app. reflexivity.
Qed.
(** Updating position [r] of a vector described by a function. *)
Lemma vset_map_seq {A} (f g : nat -> A) n r y :
  r < n -> g r = y -> (forall i, i <> r -> g i = f i) ->
  vset (map f (seq 0 n)) r y = Ok (map g (seq 0 n)).
Proof.
  intros Hr Hy Hne. rewrite (seq_split n r Hr), !map_app. cbn [map].
  pose proof (vset_app (map f (seq 0 r)) (map f (seq (S r) (n - S r))) (f r) y) as E.
  rewrite map_length, seq_length in E. rewrite E. do 2 f_equal.
  - apply map_ext_in. intros i Hi. apply in_seq in Hi. symmetry; apply Hne; lia.
  - f_equal; auto. apply map_ext_in. intros i Hi. apply in_seq in Hi. symmetry; apply Hne; lia.
Qed.
Lemma repeat_map_seq {A} (x : A) n : repeat x n = map (fun _ => x) (seq 0 n).
Proof.
  assert (G : forall s, repeat x n = map (fun _ => x) (seq s n)); [|apply G].
  induction n as [|n IH]; intros s; cbn; auto. rewrite (IH (S s)). reflexivity.
Qed.
Lemma vget_repeat {A} (x : A) n i : i < n -> vget (repeat x n) i = Ok x.
Proof. intros Hi. rewrite repeat_map_seq. apply vget_map_seq; auto. Qed.

Lemma foldR_app {A S} (g : S -> A -> res S) l1 l2 s :
  foldR g (l1 ++ l2) s = rbind (foldR g l1 s) (fun s' => foldR g l2 s').
Proof.
  revert s; induction l1 as [|a l1 IH]; intros s; cbn; auto. destruct (g s a); cbn; auto.
Qed.

Section MatP.
  Context {T : Type} `{MatItem T}.
  Implicit Type m : coo T.

  Definition coo_wf m : Prop :=
    length (coo_ci m) = length (coo_ri m) /\ length (coo_data m) = length (coo_ri m).

  Lemma coo_built_wf m : coo_built m -> coo_wf m.
  Proof.
    unfold coo_wf.
    induction 1 as [rows cols ri ci data m E|rows cols ri ci m E|rows cols nnz|m k row m' Hm IH E|m k row m' Hm IH E|m d Hm IH E].
    - unfold coo_new, rassert in E.
      destruct (length ri =? length ci) eqn:E1; [|discriminate].
      destruct (length ri =? length data) eqn:E2; [|discriminate]. cbn in E. inversion E; subst; cbn.
      apply Nat.eqb_eq in E1; apply Nat.eqb_eq in E2. auto.
    - unfold coo_from_pattern, rassert in E.
      destruct (length ri =? length ci) eqn:E1; [|discriminate].
      cbn in E. inversion E; subst; cbn. rewrite repeat_length.
      apply Nat.eqb_eq in E1. auto.
    - cbn. rewrite !repeat_length. auto.
    - unfold set_row_ind, vset in E. destruct (k <? length (coo_ri m)); [|discriminate].
      cbn in E; inversion E; subst; cbn. rewrite set_nth_length. auto.
    - unfold set_col_ind, vset in E. destruct (k <? length (coo_ci m)); [|discriminate].
      cbn in E; inversion E; subst; cbn. rewrite set_nth_length. auto.
    - cbn. rewrite E. auto.
  Qed.

  Lemma entries_length m : coo_wf m -> length (entries m) = coo_nnz m.
  Proof. intros [H1 H2]. unfold entries, coo_nnz. rewrite !combine_length. lia. Qed.
  Lemma combine_nth_error {A B} (l : list A) (l' : list B) i a b :
    nth_error l i = Some a -> nth_error l' i = Some b -> nth_error (combine l l') i = Some (a, b).
  Proof.
    revert l' i; induction l as [|x l IH]; intros [|y l'] [|i]; cbn; try discriminate; auto.
    congruence.
  Qed.
  Lemma coo_next_ok m k : coo_wf m ->
    coo_next m k = Ok (match nth_error (entries m) k with Some e => (Some e, S k) | None => (None, 0) end).
  Proof.
    intros Hwf. unfold coo_next. destruct (k <? coo_nnz m) eqn:E.
    - apply Nat.ltb_lt in E. destruct Hwf as [W1 W2]. unfold coo_nnz in E.
      destruct (vget_ok (coo_ri m) k ltac:(lia)) as (i & G1 & N1).
      destruct (vget_ok (coo_ci m) k ltac:(lia)) as (j & G2 & N2).
      destruct (vget_ok (coo_data m) k ltac:(lia)) as (v & G3 & N3).
      rewrite G1, G2, G3. cbn. unfold entries.
      erewrite combine_nth_error; eauto. erewrite combine_nth_error; eauto.
    - apply Nat.ltb_ge in E. replace (nth_error (entries m) k) with (@None (nat * nat * T)); auto.
      symmetry; apply nth_error_None. rewrite entries_length; auto.
  Qed.
  Lemma coo_collect_ok m fuel k : coo_wf m -> coo_nnz m < fuel + k -> k <= coo_nnz m ->
    coo_collect fuel m k = Ok (skipn k (entries m)).
  Proof.
    intros Hwf; revert k; induction fuel as [|fuel IH]; intros k Hk Hle; [lia|].
    cbn [coo_collect]. rewrite coo_next_ok by auto. cbn [rbind].
    destruct (nth_error (entries m) k) as [e|] eqn:E.
    - assert (Hlt : k < coo_nnz m).
      { rewrite <- entries_length by auto. apply nth_error_Some. congruence. }
      rewrite IH by lia. cbn [rbind]. f_equal.
      clear -E. revert k E. generalize (entries m) as l. induction l as [|x l IHl]; intros [|k] E; try discriminate.
      + cbn in E. inversion E; subst. reflexivity.
      + cbn in E. apply IHl in E. cbn [skipn]. exact E.
    - f_equal. symmetry. apply skipn_all2. apply nth_error_None; auto.
  Qed.
  Lemma coo_items_ok m : coo_wf m -> coo_items m = Ok (entries m).
  Proof. intros Hwf. unfold coo_items. rewrite coo_collect_ok; auto; lia. Qed.

  (** The iterator starts over after [None]. *)
  Lemma nexts_ok m n : coo_wf m ->
    forall k, k <= coo_nnz m ->
    nexts m n k = Ok (map (fun i => nth_error (entries m) ((k + i) mod S (coo_nnz m))) (seq 0 n)).
  Proof.
    intros Hwf; induction n as [|n IH]; intros k Hk; [reflexivity|].
    cbn [nexts]. rewrite coo_next_ok by auto. cbn [rbind].
    assert (Hmod : nth_error (entries m) ((k + 0) mod S (coo_nnz m)) = nth_error (entries m) k).
    { f_equal. rewrite Nat.add_0_r. apply Nat.mod_small. lia. }
    destruct (nth_error (entries m) k) as [e|] eqn:E; cbn [snd fst].
    - assert (k < coo_nnz m) by (rewrite <- entries_length by auto; apply nth_error_Some; congruence).
      rewrite IH by lia. cbn [rbind seq map]. rewrite Hmod. do 2 f_equal.
      rewrite <- seq_shift, map_map. apply map_ext. intros i. do 2 f_equal. lia.
    - assert (k = coo_nnz m).
      { apply nth_error_None in E. rewrite entries_length in E by auto. lia. }
      subst k. rewrite IH by lia. cbn [rbind seq map]. rewrite Hmod. do 2 f_equal.
      rewrite <- seq_shift, map_map. apply map_ext. intros i. f_equal.
      replace (coo_nnz m + S i) with (i + 1 * S (coo_nnz m)) by lia.
      rewrite Nat.mod_add by lia. reflexivity.
  Qed.

  (** *** Counting and row pointers *)
  Definition count (r : nat) (l : list nat) : nat := length (filter (fun a => a =? r) l).

  Lemma count_app r l l' : count r (l ++ l') = count r l + count r l'.
  Proof. unfold count. rewrite filter_app, app_length. reflexivity. Qed.

  Lemma incr_map_seq (f : nat -> nat) n r :
    r < n -> incr (map f (seq 0 n)) r = Ok (map (fun i => f i + if i =? r then 1 else 0) (seq 0 n)).
  Proof.
    intros Hr. unfold incr. rewrite vget_map_seq by auto. cbn [rbind].
    apply vset_map_seq; auto.
    - rewrite Nat.eqb_refl. lia.
    - intros i Hi. apply Nat.eqb_neq in Hi. rewrite Hi. lia.
  Qed.
  Lemma incr_panic l r : length l <= r -> incr l r = Panic PIndex.
  Proof. intros Hr. unfold incr. rewrite vget_panic by auto. reflexivity. Qed.

  Lemma count_loop rows l (f : nat -> nat) :
    foldR incr l (map f (seq 0 rows)) =
    if forallb (fun r => r <? rows) l
    then Ok (map (fun r => f r + count r l) (seq 0 rows)) else Panic PIndex.
  Proof.
    revert f; induction l as [|a l IH]; intros f; cbn [foldR forallb].
    - f_equal. apply map_ext. intros; unfold count; cbn; lia.
    - destruct (a <? rows) eqn:E.
      + apply Nat.ltb_lt in E. rewrite incr_map_seq by auto. cbn [rbind andb]. rewrite IH.
        destruct (forallb _ l); auto. f_equal. apply map_ext. intros r.
        unfold count; cbn [filter]. rewrite (Nat.eqb_sym a r). destruct (r =? a); cbn; lia.
      + apply Nat.ltb_ge in E. cbn [andb]. rewrite incr_panic; [reflexivity|].
        rewrite map_length, seq_length. auto.
  Qed.

  Lemma prefix_sums_eq off l :
    prefix_sums off l = map (fun r => off + list_sum (firstn r l)) (seq 1 (length l)).
  Proof.
    revert off; induction l as [|c l IH]; intros off; cbn [prefix_sums length seq map]; auto.
    f_equal.
    - cbn. lia.
    - rewrite IH. rewrite <- (seq_shift (length l) 1), map_map. apply map_ext.
      intros r. cbn [firstn]. change (list_sum (c :: firstn r l)) with (c + list_sum (firstn r l)). lia.
  Qed.
  Lemma build_indptr_eq l : build_indptr l = row_starts l.
  Proof.
    unfold build_indptr, row_starts. rewrite prefix_sums_eq. cbn [seq map]. reflexivity.
  Qed.
  Lemma row_starts_length l : length (row_starts l) = S (length l).
  Proof. unfold row_starts. rewrite map_length, seq_length. reflexivity. Qed.
  Lemma row_starts_get l r : r <= length l -> vget (row_starts l) r = Ok (list_sum (firstn r l)).
  Proof. intros Hr. unfold row_starts. rewrite vget_map_seq by lia. reflexivity. Qed.

  (** *** COO to CSR *)
  Lemma row_of_app r (l l' : list (nat * nat * T)) : row_of r (l ++ l') = row_of r l ++ row_of r l'.
  Proof. unfold row_of. rewrite filter_app, map_app. reflexivity. Qed.
  Lemma row_of_one r i j (v : T) : row_of r [(i, j, v)] = if i =? r then [(j, v)] else [].
  Proof. unfold row_of. cbn. destruct (i =? r); reflexivity. Qed.

  Definition slot (cnt : nat -> nat) (done : list (nat * nat * T)) (r : nat) : list (nat * T) :=
    row_of r done ++ repeat (0, mzero) (cnt r - length (row_of r done)).
  Definition slots (cnt : nat -> nat) done (l : list nat) : list (nat * T) := concat (map (slot cnt done) l).

  Lemma slots_length cnt done l :
    (forall r, In r l -> length (row_of r done) <= cnt r) ->
    length (slots cnt done l) = list_sum (map cnt l).
  Proof.
    intros Hl. unfold slots. induction l as [|r l IH]; cbn [map concat list_sum fold_right]; auto.
    rewrite app_length, IH by (intros; apply Hl; cbn; auto). unfold slot at 1.
    rewrite app_length, repeat_length. specialize (Hl r (or_introl eq_refl)). unfold list_sum. lia.
  Qed.
  Lemma slots_ext cnt d d' l :
    (forall r, In r l -> row_of r d = row_of r d') -> slots cnt d l = slots cnt d' l.
  Proof.
    intros Hl. unfold slots. f_equal. apply map_ext_in. intros r Hr. unfold slot. rewrite Hl; auto.
  Qed.
  Lemma firstn_map_seq {A} (f : nat -> A) n r : r <= n -> firstn r (map f (seq 0 n)) = map f (seq 0 r).
  Proof.
    intros Hr. replace n with (r + (n - r)) by lia. rewrite seq_app, map_app, firstn_app.
    rewrite map_length, seq_length. replace (r - r) with 0 by lia. cbn [firstn].
    rewrite app_nil_r. apply firstn_all2. rewrite map_length, seq_length. lia.
  Qed.

  Lemma place_step rows cnt done i j v :
    i < rows -> S (length (row_of i done)) <= cnt i ->
    (forall r, length (row_of r done) <= cnt r) ->
    let P := slots cnt done (seq 0 rows) in
    let P' := slots cnt (done ++ [(i, j, v)]) (seq 0 rows) in
    place (row_starts (map cnt (seq 0 rows)))
          (map fst P, map snd P, map (fun r => length (row_of r done)) (seq 0 rows)) (i, j, v) =
    Ok (map fst P', map snd P', map (fun r => length (row_of r (done ++ [(i, j, v)]))) (seq 0 rows)).
  Proof.
    intros Hi Hc Hall P P'. unfold place.
    rewrite row_starts_get by (rewrite map_length, seq_length; lia). cbn [rbind].
    rewrite vget_map_seq by auto. cbn [rbind]. rewrite firstn_map_seq by lia.
    set (n1 := slots cnt done (seq 0 i) ++ row_of i done).
    set (n2 := repeat (0, mzero) (cnt i - S (length (row_of i done))) ++ slots cnt done (seq (S i) (rows - S i)) : list (nat * T)).
    assert (HP : P = n1 ++ (0, mzero) :: n2).
    { unfold P. rewrite (seq_split rows i Hi). unfold slots at 1. rewrite map_app, concat_app. cbn [map concat].
      unfold n1, n2. fold (slots cnt done (seq 0 i)). fold (slots cnt done (seq (S i) (rows - S i))).
      unfold slot. rewrite <- !app_assoc. f_equal. f_equal.
      replace (cnt i - length (row_of i done)) with (S (cnt i - S (length (row_of i done)))) by lia.
      cbn [repeat]. reflexivity. }
    assert (HP' : P' = n1 ++ (j, v) :: n2).
    { unfold P'. rewrite (seq_split rows i Hi). unfold slots at 1. rewrite map_app, concat_app. cbn [map concat].
      unfold n1, n2. fold (slots cnt (done ++ [(i, j, v)]) (seq 0 i)).
      fold (slots cnt (done ++ [(i, j, v)]) (seq (S i) (rows - S i))).
      rewrite !(slots_ext cnt (done ++ [(i, j, v)]) done).
      - unfold slot. rewrite row_of_app, row_of_one, Nat.eqb_refl, app_length. cbn [length].
        rewrite <- !app_assoc. f_equal. f_equal.
        replace (cnt i - (length (row_of i done) + 1)) with (cnt i - S (length (row_of i done))) by lia. reflexivity.
      - intros r Hr. apply in_seq in Hr. rewrite row_of_app, row_of_one.
        destruct (i =? r) eqn:E; [apply Nat.eqb_eq in E; lia|]. rewrite app_nil_r; auto.
      - intros r Hr. apply in_seq in Hr. rewrite row_of_app, row_of_one.
        destruct (i =? r) eqn:E; [apply Nat.eqb_eq in E; lia|]. rewrite app_nil_r; auto. }
    assert (Hlen : list_sum (map cnt (seq 0 i)) + length (row_of i done) = length n1).
    { unfold n1. rewrite app_length, slots_length; auto. }
    rewrite Hlen, HP, HP', !map_app. cbn [map fst snd].
    pose proof (vset_app (map fst n1) (map fst n2) 0 j) as E1. rewrite map_length in E1. rewrite E1. cbn [rbind].
    pose proof (vset_app (map snd n1) (map snd n2) mzero v) as E2. rewrite map_length in E2. rewrite E2. cbn [rbind].
    rewrite (vset_map_seq _ (fun r => length (row_of r (done ++ [(i, j, v)])))); auto.
    - rewrite row_of_app, row_of_one, Nat.eqb_refl, app_length. cbn; lia.
    - intros r Hr. rewrite row_of_app, row_of_one.
      destruct (i =? r) eqn:E; [apply Nat.eqb_eq in E; lia|]. rewrite app_nil_r; auto.
  Qed.

  Lemma place_loop rows cnt todo done :
    (forall e, In e todo -> fst (fst e) < rows) ->
    (forall r, length (row_of r (done ++ todo)) <= cnt r) ->
    let P := slots cnt done (seq 0 rows) in
    let P' := slots cnt (done ++ todo) (seq 0 rows) in
    foldR (place (row_starts (map cnt (seq 0 rows)))) todo
          (map fst P, map snd P, map (fun r => length (row_of r done)) (seq 0 rows)) =
    Ok (map fst P', map snd P', map (fun r => length (row_of r (done ++ todo))) (seq 0 rows)).
  Proof.
    revert done; induction todo as [|[[i j] v] todo IH]; intros done Hin Hc P P'; cbn [foldR].
    - unfold P'. rewrite app_nil_r. reflexivity.
    - unfold P. rewrite place_step.
      + cbn [rbind]. unfold P'. replace (done ++ (i, j, v) :: todo) with ((done ++ [(i, j, v)]) ++ todo).
        * apply IH; [intros; apply Hin; cbn; auto|]. intros r.
          rewrite <- app_assoc. apply Hc.
        * rewrite <- app_assoc. reflexivity.
      + apply (Hin (i, j, v)); cbn; auto.
      + specialize (Hc i). change ((i, j, v) :: todo) with ([(i, j, v)] ++ todo) in Hc.
        rewrite !row_of_app, !app_length, row_of_one, Nat.eqb_refl in Hc. cbn in Hc. lia.
      + intros r. specialize (Hc r). rewrite row_of_app, app_length in Hc. lia.
  Qed.

  Lemma entries_rows m : coo_wf m -> map (fun e => fst (fst e)) (entries m) = coo_ri m.
  Proof.
    intros [H1 H2]. unfold entries. rewrite <- (map_map fst fst).
    assert (G : forall A B (l : list A) (l' : list B), length l <= length l' -> map fst (combine l l') = l).
    { intros A B l. induction l as [|a l IH]; intros [|b l'] Hl; cbn in *; auto; try lia. f_equal. apply IH; lia. }
    rewrite G by (rewrite combine_length; lia). apply G; lia.
  Qed.
  Lemma count_rows m r : coo_wf m -> count r (coo_ri m) = length (row_of r (entries m)).
  Proof.
    intros Hwf. rewrite <- entries_rows by auto. unfold count, row_of. rewrite map_length.
    generalize (entries m) as l. induction l as [|e l IH]; cbn; auto.
    destruct (fst (fst e) =? r); cbn; auto.
  Qed.
  Lemma sum_counts rows (l : list nat) :
    forallb (fun r => r <? rows) l = true ->
    list_sum (map (fun r => count r l) (seq 0 rows)) = length l.
  Proof.
    induction l as [|a l IH]; intros Hl.
    - assert (G : forall s n, list_sum (map (fun r => count r []) (seq s n)) = 0); [|apply G].
      intros s n; revert s; induction n; intros s; cbn; auto.
    - cbn in Hl. apply andb_true_iff in Hl as [Ha Hl]. apply Nat.ltb_lt in Ha. cbn [length].
      rewrite <- (IH Hl). clear -Ha.
      rewrite (seq_split rows a Ha), !map_app, !list_sum_app. cbn [map].
      assert (G : forall s n, ~ (s <= a < s + n) -> map (fun r => count r (a :: l)) (seq s n) = map (fun r => count r l) (seq s n)).
      { intros s n Hn. apply map_ext_in. intros r Hr. apply in_seq in Hr. unfold count; cbn.
        destruct (a =? r) eqn:E; auto. apply Nat.eqb_eq in E. lia. }
      rewrite !G by lia. unfold list_sum; cbn [fold_right]. unfold count at 2; cbn. rewrite Nat.eqb_refl. cbn.
      unfold count at 4. lia.
  Qed.
  Lemma concat_repeat {A} (x : A) (f : nat -> nat) l :
    concat (map (fun r => repeat x (f r)) l) = repeat x (list_sum (map f l)).
  Proof.
    induction l as [|a l IH]; cbn; auto. rewrite IH. change (fold_right Nat.add 0 (map f l)) with (list_sum (map f l)).
    generalize (f a), (list_sum (map f l)). intros n m. induction n; cbn; congruence.
  Qed.
  Lemma map_repeat_ {A B} (g : A -> B) x n : map g (repeat x n) = repeat (g x) n.
  Proof. induction n; cbn; congruence. Qed.

  Theorem to_csr_eq m : coo_wf m ->
    to_csr m =
    if forallb (fun r => r <? coo_rows m) (coo_ri m)
    then Ok (csr_of (coo_cols m) (map (fun r => row_of r (entries m)) (seq 0 (coo_rows m))))
    else Panic PIndex.
  Proof.
    intros Hwf. unfold to_csr. rewrite repeat_map_seq, count_loop.
    destruct (forallb _ _) eqn:Hf; [|reflexivity]. cbn [rbind Nat.add].
    set (R := coo_rows m) in *. set (es := entries m).
    assert (Hcnt : map (fun r => count r (coo_ri m)) (seq 0 R) = map (fun r => length (row_of r es)) (seq 0 R)).
    { apply map_ext. intros; apply count_rows; auto. }
    rewrite Hcnt. set (cnt := fun r => length (row_of r es)).
    assert (Hsum : list_sum (map cnt (seq 0 R)) = coo_nnz m).
    { unfold cnt. rewrite <- Hcnt. apply sum_counts; auto. }
    rewrite build_indptr_eq. rewrite row_starts_get by (rewrite map_length, seq_length; lia). cbn [rbind].
    rewrite firstn_map_seq, Hsum by lia. rewrite Nat.eqb_refl. cbn [rassert rbind].
    rewrite coo_items_ok by auto. cbn [rbind]. fold es.
    pose proof (place_loop R cnt es []) as HL. cbn [app] in HL. cbv zeta in HL.
    assert (Hinit : slots cnt [] (seq 0 R) = repeat (0, mzero) (coo_nnz m)).
    { unfold slots, slot, row_of. cbn [filter map app length]. rewrite <- Hsum, <- concat_repeat.
      f_equal. apply map_ext. intros. rewrite Nat.sub_0_r. reflexivity. }
    rewrite Hinit in HL. rewrite !map_repeat_ in HL. cbn [fst snd] in HL.
    replace (map (fun r => length (row_of r [])) (seq 0 R)) with (map (fun _ : nat => 0) (seq 0 R)) in HL by reflexivity.
    rewrite HL; clear HL.
    - cbn [rbind].
      assert (Hfin : slots cnt es (seq 0 R) = concat (map (fun r => row_of r es) (seq 0 R))).
      { unfold slots. f_equal. apply map_ext. intros r. unfold slot, cnt. rewrite Nat.sub_diag. cbn. apply app_nil_r. }
      rewrite Hfin.
      assert (Hl : length (concat (map (fun r => row_of r es) (seq 0 R))) = coo_nnz m).
      { rewrite <- Hfin, slots_length by auto. exact Hsum. }
      unfold csr_new. rewrite row_starts_length, !map_length, seq_length, Hl.
      replace (S R =? R + 1) with true by (symmetry; apply Nat.eqb_eq; lia). cbn [rassert rbind].
      rewrite Nat.eqb_refl. cbn [rassert rbind pred].
      pose proof (row_starts_get (map cnt (seq 0 R)) R) as G.
      rewrite firstn_map_seq, Hsum in G by lia. unfold vget in G.
      destruct (nth_error (row_starts (map cnt (seq 0 R))) R) as [l|];
        [|rewrite map_length, seq_length in G; specialize (G ltac:(lia)); discriminate].
      rewrite map_length, seq_length in G. specialize (G ltac:(lia)). inversion G; subst l. cbn [unwrap rbind].
      rewrite Nat.eqb_refl. cbn [rassert rbind]. unfold csr_of. rewrite map_length, seq_length, map_map. reflexivity.
    - intros e He. rewrite forallb_forall in Hf. apply Nat.ltb_lt, Hf.
      rewrite <- entries_rows by auto. apply in_map_iff; eauto.
    - intros r. unfold cnt; lia.
  Qed.
End MatP.
