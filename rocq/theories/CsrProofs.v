(** Every CSR matrix with sorted row pointers is described by its rows; the
    problem constructors and the Hessian combination. *)
From Verif Require Import Base Num Matrix MatSpec NodeInd MatrixProofs SumDupProofs Problem.

Section Csr.
  Context {T : Type} `{MatItem T}.

  (** Row pointers start at 0 and never decrease. *)
  Definition sorted_ptr (p : list nat) : Prop :=
    nth_error p 0 = Some 0 /\
    forall r a b, nth_error p r = Some a -> nth_error p (S r) = Some b -> a <= b.

  Definition slice {A} (a b : nat) (l : list A) : list A := firstn (b - a) (skipn a l).
  Definition rows_of (m : csr T) : list (list (nat * T)) :=
    map (fun r => slice (nth r (csr_indptr m) 0) (nth (S r) (csr_indptr m) 0)
                        (combine (csr_indices m) (csr_data m))) (seq 0 (csr_rows m)).

  Lemma slices_concat {A} (p : list nat) (l : list A) n :
    length p = S n -> sorted_ptr p ->
    (forall r, r <= n -> nth r p 0 <= length l) ->
    concat (map (fun r => slice (nth r p 0) (nth (S r) p 0) l) (seq 0 n)) = firstn (nth n p 0) l /\
    forall r, r <= n -> list_sum (firstn r (map (@length A) (map (fun r => slice (nth r p 0) (nth (S r) p 0) l) (seq 0 n)))) = nth r p 0.
  Proof.
    intros Hp [H0 Hs] Hl.
    assert (Hs' : forall r, r < n -> nth r p 0 <= nth (S r) p 0).
    { intros r Hr. apply (Hs r); apply nth_error_nth'; lia. }
    assert (Hz : nth 0 p 0 = 0) by (apply nth_error_nth; auto).
    assert (G : forall m, m <= n ->
      concat (map (fun r => slice (nth r p 0) (nth (S r) p 0) l) (seq 0 m)) = firstn (nth m p 0) l).
    { induction m as [|m IH]; intros Hm.
      - cbn. rewrite Hz. reflexivity.
      - rewrite seq_S, map_app, concat_app, IH by lia. cbn. rewrite app_nil_r. unfold slice.
        specialize (Hs' m ltac:(lia)). specialize (Hl (S m) Hm).
        replace (nth (S m) p 0) with (nth m p 0 + (nth (S m) p 0 - nth m p 0)) at 2 by lia.
        generalize (nth m p 0) as a, (nth (S m) p 0 - nth m p 0) as b. clear.
        intros a; revert l; induction a as [|a IH]; intros l b; cbn; auto.
        destruct l as [|x l]; cbn; [destruct b; reflexivity|]. rewrite IH. reflexivity. }
    split; [apply G; lia|]. intros r Hr. rewrite map_map, firstn_map_seq by lia.
    assert (Hsum : forall ls : list (list A), list_sum (map (@length A) ls) = length (concat ls)).
    { induction ls as [|x ls IH]; cbn; auto. rewrite app_length, <- IH. reflexivity. }
    rewrite <- (map_map (fun r => slice (nth r p 0) (nth (S r) p 0) l) (@length A)), Hsum, G by lia.
    rewrite firstn_length. specialize (Hl r Hr). lia.
  Qed.

  Lemma last_sorted_le (p : list nat) n : length p = S n -> sorted_ptr p -> forall r, r <= n -> nth r p 0 <= nth n p 0.
  Proof.
    intros Hp [_ Hs] r Hr. induction n as [|n IH] in r, Hr, Hp |- *.
    - replace r with 0 by lia. lia.
    - assert (Hs' : forall r, r < S n -> nth r p 0 <= nth (S r) p 0).
      { intros r' Hr'. apply (Hs r'); apply nth_error_nth'; lia. }
      clear IH. assert (Hd : forall d, r + d <= S n -> nth r p 0 <= nth (r + d) p 0).
      { induction d as [|d IHd]; intros Hd; [rewrite Nat.add_0_r; lia|].
        specialize (Hs' (r + d) ltac:(lia)). replace (r + S d) with (S (r + d)) by lia.
        specialize (IHd ltac:(lia)). lia. }
      specialize (Hd (S n - r) ltac:(lia)). replace (r + (S n - r)) with (S n) in Hd by lia. exact Hd.
  Qed.

  Theorem csr_is_rows rows cols indptr indices data (m : csr T) :
    csr_new rows cols indptr indices data = Ok m -> sorted_ptr indptr ->
    m = csr_of cols (rows_of m) /\ length (rows_of m) = rows.
  Proof.
    unfold csr_new, rassert. destruct (length indptr =? rows + 1) eqn:E1; [|discriminate].
    destruct (length indices =? length data) eqn:E2; [|discriminate]. cbn [rbind].
    apply Nat.eqb_eq in E1, E2.
    destruct (nth_error indptr (pred (length indptr))) as [l|] eqn:E3; [|discriminate]. cbn [unwrap rbind].
    destruct (l =? length data) eqn:E4; [|discriminate]. apply Nat.eqb_eq in E4. subst l.
    cbn [rbind]. intros E Hs. inversion E; subst m; clear E.
    unfold rows_of; cbn [csr_rows csr_indptr csr_indices csr_data csr_cols].
    assert (Hlen : length indptr = S rows) by lia.
    rewrite Hlen in E3. cbn [pred] in E3. apply (nth_error_nth _ _ 0) in E3.
    assert (Hcl : length (combine indices data) = length data) by (rewrite combine_length; lia).
    destruct (slices_concat indptr (combine indices data) rows Hlen Hs) as [G1 G2].
    { intros r Hr. rewrite Hcl, <- E3. apply last_sorted_le; auto. }
    split; [|rewrite map_length, seq_length; reflexivity].
    unfold csr_of. rewrite G1. rewrite E3. rewrite firstn_all2 by lia.
    assert (Hf : map fst (combine indices data) = indices /\ map snd (combine indices data) = data).
    { clear -E2. revert data E2. induction indices as [|a l IH]; intros [|b d] E2; cbn in *; auto; try discriminate.
      destruct (IH d) as [-> ->]; auto. }
    destruct Hf as [-> ->]. rewrite map_length, seq_length. f_equal.
    unfold row_starts. rewrite !map_length, seq_length.
    transitivity (map (fun r => nth r indptr 0) (seq 0 (S rows))).
    - clear -Hlen. rewrite <- Hlen. clear Hlen. induction indptr as [|a l IH]; cbn; auto. f_equal.
      rewrite <- seq_shift, map_map. exact IH.
    - apply map_ext_in. intros r Hr. apply in_seq in Hr. symmetry. rewrite <- G2 by lia. reflexivity.
  Qed.
End Csr.
