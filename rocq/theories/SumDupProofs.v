(** Proofs about matrix-vector products and duplicate merging. *)
From Verif Require Import Base Num Matrix MatSpec NodeInd MatrixProofs.

Section Mul.
  Context {T : Type} `{MatItem T}.

  Definition in_range (rows cols : nat) (e : nat * nat * T) : bool :=
    (fst (fst e) <? rows) && (snd (fst e) <? cols).

  Lemma mul_loop rows (x : list T) es (f : nat -> T) :
    foldR (fun y it =>
             let '(row, col, v) := it in
             rbind (vget x col) (fun xc =>
             rbind (vget y row) (fun y0 =>
             vset y row (madd y0 (mmul xc v)))))
          es (map f (seq 0 rows)) =
    if forallb (in_range rows (length x)) es
    then Ok (map (fun r => fold_left (fun acc e => madd acc (mmul (nth (fst e) x mzero) (snd e)))
                                     (row_of r es) (f r)) (seq 0 rows))
    else Panic PIndex.
  Proof.
    revert f; induction es as [|[[i j] v] es IH]; intros f; cbn [foldR forallb].
    - reflexivity.
    - unfold in_range at 1; cbn [fst snd].
      destruct (j <? length x) eqn:Ej.
      2:{ rewrite andb_false_r. cbn [andb]. apply Nat.ltb_ge in Ej. rewrite vget_panic by auto. reflexivity. }
      apply Nat.ltb_lt in Ej. destruct (vget_ok x j Ej) as (xj & G & N). rewrite G. cbn [rbind].
      destruct (i <? rows) eqn:Ei; cbn [andb].
      2:{ apply Nat.ltb_ge in Ei. rewrite vget_panic by (rewrite map_length, seq_length; auto). reflexivity. }
      apply Nat.ltb_lt in Ei. rewrite vget_map_seq by auto. cbn [rbind].
      rewrite (vset_map_seq f (fun r => if i =? r then madd (f r) (mmul xj v) else f r)); auto.
      + cbn [rbind]. rewrite IH. destruct (forallb _ es); auto. f_equal. apply map_ext. intros r.
        change ((i, j, v) :: es) with ([(i, j, v)] ++ es). rewrite row_of_app, row_of_one.
        destruct (i =? r); cbn [app fold_left fst snd]; auto.
        rewrite (nth_error_nth x j mzero N). reflexivity.
      + rewrite Nat.eqb_refl. reflexivity.
      + intros r Hr. destruct (i =? r) eqn:E; auto. apply Nat.eqb_eq in E. congruence.
  Qed.

  Theorem coo_mul_eq (m : coo T) (x : list T) : coo_wf m ->
    coo_mul m x =
    if coo_cols m =? length x then
      if forallb (in_range (coo_rows m) (coo_cols m)) (entries m)
      then Ok (map (fun r => row_dot (row_of r (entries m)) x) (seq 0 (coo_rows m)))
      else Panic PIndex
    else Panic PAssert.
  Proof.
    intros Hwf. unfold coo_mul. destruct (coo_cols m =? length x) eqn:E; [|reflexivity].
    apply Nat.eqb_eq in E. cbn [rassert rbind]. rewrite coo_items_ok by auto. cbn [rbind].
    rewrite repeat_map_seq, mul_loop, <- E. reflexivity.
  Qed.
End Mul.

Lemma in_firsts l c : In c (firsts l) <-> In c l.
Proof.
  induction l as [|a l IH]; cbn; [intuition|]. rewrite filter_In, IH.
  destruct (c =? a) eqn:E; cbn.
  - apply Nat.eqb_eq in E. intuition.
  - apply Nat.eqb_neq in E. intuition.
Qed.
Lemma firsts_snoc l c :
  firsts (l ++ [c]) = if existsb (Nat.eqb c) l then firsts l else firsts l ++ [c].
Proof.
  induction l as [|a l IH]; cbn [app firsts existsb]; auto.
  rewrite IH. destruct (c =? a) eqn:E; cbn [orb].
  - apply Nat.eqb_eq in E; subst a. destruct (existsb (Nat.eqb c) l) eqn:E2; auto.
    f_equal. rewrite filter_app. cbn. rewrite Nat.eqb_refl. cbn. apply app_nil_r.
  - destruct (existsb (Nat.eqb c) l) eqn:E2; auto.
    rewrite filter_app. cbn. rewrite E. reflexivity.
Qed.
Lemma firsts_NoDup l : NoDup (firsts l).
Proof.
  induction l as [|a l IH]; cbn; constructor.
  - rewrite filter_In, Nat.eqb_refl. cbn. intuition discriminate.
  - apply NoDup_filter; auto.
Qed.
Lemma firsts_id l : NoDup l -> firsts l = l.
Proof.
  induction 1 as [|a l Hn Hd IH]; cbn; auto. rewrite IH. f_equal.
  clear -Hn. induction l as [|b l IH]; cbn; auto. destruct (b =? a) eqn:E.
  - apply Nat.eqb_eq in E; subst. cbn in Hn. tauto.
  - cbn. f_equal. apply IH. cbn in Hn. tauto.
Qed.
Lemma existsb_in c l : existsb (Nat.eqb c) l = true <-> In c l.
Proof.
  rewrite existsb_exists. split.
  - intros (x & Hx & E). apply Nat.eqb_eq in E. subst; auto.
  - intros Hc. exists c. rewrite Nat.eqb_refl; auto.
Qed.
Lemma vset_in_range {A} (l : list A) i x l' : vset l i x = Ok l' -> length l' = length l.
Proof. unfold vset. destruct (i <? length l); [|discriminate]. intros E; inversion E. apply set_nth_length. Qed.

Section SumDup.
  Context {T : Type} `{MatItem T}.

  Lemma at_col_app c (l l' : list (nat * T)) : at_col c (l ++ l') = at_col c l ++ at_col c l'.
  Proof. unfold at_col. rewrite filter_app, map_app. reflexivity. Qed.
  Lemma at_col_one c j (d : T) : at_col c [(j, d)] = if j =? c then [d] else [].
  Proof. unfold at_col. cbn. destruct (j =? c); reflexivity. Qed.
  Lemma at_col_nonempty c (l : list (nat * T)) : In c (map fst l) -> at_col c l <> [].
  Proof.
    intros Hin. apply in_map_iff in Hin as ([j v] & E & Hin). cbn in E; subst j.
    unfold at_col. assert (Hf : In (c, v) (filter (fun e => fst e =? c) l)).
    { apply filter_In. cbn. rewrite Nat.eqb_refl; auto. }
    destruct (filter _ l); [destruct Hf|discriminate].
  Qed.
  Lemma sum1_snoc (l : list T) d : l <> [] -> sum1 (l ++ [d]) = madd (sum1 l) d.
  Proof. destruct l as [|v l]; [congruence|]. intros _. cbn. rewrite fold_left_app. reflexivity. Qed.

  Lemma merged_new (p : list (nat * T)) c d :
    ~ In c (map fst p) -> merged_row (p ++ [(c, d)]) = merged_row p ++ [(c, d)].
  Proof.
    intros Hn. unfold merged_row. rewrite map_app. cbn [map fst]. rewrite firsts_snoc.
    destruct (existsb (Nat.eqb c) (map fst p)) eqn:E; [apply existsb_in in E; contradiction|].
    rewrite map_app. f_equal.
    - apply map_ext_in. intros x Hx. rewrite at_col_app, at_col_one.
      destruct (c =? x) eqn:Ex; [|rewrite app_nil_r; auto].
      apply Nat.eqb_eq in Ex; subst x. apply (proj1 (in_firsts (map fst p) c)) in Hx. contradiction.
    - cbn [map]. rewrite at_col_app, at_col_one, Nat.eqb_refl.
      replace (at_col c p) with (@nil T); [reflexivity|].
      clear -Hn. unfold at_col. induction p as [|[j v] p IH]; cbn in *; auto.
      destruct (j =? c) eqn:E; [apply Nat.eqb_eq in E; tauto|]. apply IH; tauto.
  Qed.
  Lemma merged_old (p : list (nat * T)) c d l1 l2 :
    firsts (map fst p) = l1 ++ c :: l2 ->
    exists m1 m2, length m1 = length l1 /\
      merged_row p = m1 ++ (c, sum1 (at_col c p)) :: m2 /\
      merged_row (p ++ [(c, d)]) = m1 ++ (c, madd (sum1 (at_col c p)) d) :: m2.
  Proof.
    intros E. assert (Hin : In c (map fst p)).
    { apply in_firsts. rewrite E. apply in_app_iff; cbn; auto. }
    assert (Hnd := firsts_NoDup (map fst p)). rewrite E in Hnd. apply NoDup_remove_2 in Hnd.
    exists (map (fun x => (x, sum1 (at_col x p))) l1), (map (fun x => (x, sum1 (at_col x p))) l2).
    split; [apply map_length|]. unfold merged_row. rewrite map_app. cbn [map fst]. rewrite firsts_snoc.
    rewrite (proj2 (existsb_in c (map fst p)) Hin), E, !map_app. cbn [map]. split; [reflexivity|].
    rewrite at_col_app, at_col_one, Nat.eqb_refl, sum1_snoc by (apply at_col_nonempty; auto).
    assert (G : forall l, ~ In c l -> map (fun x => (x, sum1 (at_col x (p ++ [(c, d)])))) l =
                                      map (fun x => (x, sum1 (at_col x p))) l).
    { intros l Hl. apply map_ext_in. intros x Hx. rewrite at_col_app, at_col_one.
      destruct (c =? x) eqn:Ex; [apply Nat.eqb_eq in Ex; subst; contradiction|]. rewrite app_nil_r; auto. }
    rewrite !G; auto; intros Hx; apply Hnd; apply in_app_iff; auto.
  Qed.

  Definition out (done : list (list (nat * T))) (p : list (nat * T)) : list (nat * T) :=
    concat (map merged_row done) ++ merged_row p.

  Record inv (R cols : nat) (done : list (list (nat * T))) (p : list (nat * T)) (s : sd_state) : Prop := {
    i_seen : length (sd_colseen s) = cols;
    i_row : length (sd_colrow s) = cols;
    i_newk : length (sd_colnewk s) = cols;
    i_nk : sd_newk s = length (out done p);
    i_idx : sd_indices s = map fst (out done p);
    i_data : sd_data s = map snd (out done p);
    i_cnt : sd_counter s = map (fun i => nth i (map (fun l => length (merged_row l)) (done ++ [p])) 0) (seq 0 R);
    i_le : forall c, nth_error (sd_colseen s) c = Some true ->
             exists r, nth_error (sd_colrow s) c = Some r /\ r <= length done;
    i_in : forall c, In c (map fst p) <->
             nth_error (sd_colseen s) c = Some true /\ nth_error (sd_colrow s) c = Some (length done);
    i_pos : forall c l1 l2, firsts (map fst p) = l1 ++ c :: l2 ->
             nth_error (sd_colnewk s) c = Some (length (concat (map merged_row done)) + length l1)
  }.

  Lemma nth_snoc_len (l : list nat) (x : nat) i :
    nth i (l ++ [x]) 0 = if i =? length l then x else nth i l 0.
  Proof.
    destruct (i =? length l) eqn:E.
    - apply Nat.eqb_eq in E; subst. rewrite app_nth2, Nat.sub_diag by lia. reflexivity.
    - apply Nat.eqb_neq in E. destruct (Nat.lt_ge_cases i (length l)) as [Hl|Hl].
      + rewrite app_nth1 by auto. reflexivity.
      + rewrite !nth_overflow; auto. rewrite app_length; cbn; lia.
  Qed.

  Lemma sd_step_ok (m : csr T) R cols done p s k c d :
    inv R cols done p s -> length done < R -> csr_rows m = R ->
    nth_error (csr_indices m) k = Some c -> nth_error (csr_data m) k = Some d ->
    if c <? cols
    then exists s', sd_step m (length done) s k = Ok s' /\ inv R cols done (p ++ [(c, d)]) s'
    else sd_step m (length done) s k = Panic PIndex.
  Proof.
    intros I HR HRm Hc Hd. destruct I as [Is Ir In_ Ink Iidx Idata Icnt Ile Iin Ipos].
    assert (Gc : vget (csr_indices m) k = Ok c) by (unfold vget; rewrite Hc; reflexivity).
    assert (Gd : vget (csr_data m) k = Ok d) by (unfold vget; rewrite Hd; reflexivity).
    unfold sd_step. rewrite Gc. cbn [rbind]. rewrite Gd. cbn [rbind].
    destruct (c <? cols) eqn:E.
    2:{ apply Nat.ltb_ge in E. rewrite (vget_panic (sd_colseen s) c) by lia. reflexivity. }
    apply Nat.ltb_lt in E.
    destruct (vget_ok (sd_colseen s) c ltac:(lia)) as (seen & G1 & N1). rewrite G1. cbn [rbind].
    destruct (vget_ok (sd_colrow s) c ltac:(lia)) as (crow & G2 & N2). rewrite G2. cbn [rbind].
    assert (Hiff : negb seen || negb (crow =? length done) = false <-> In c (map fst p)).
    { rewrite Iin, N1, N2, orb_false_iff, !negb_false_iff, Nat.eqb_eq. intuition congruence. }
    assert (Hle' : forall cs cr, cs = set_nth (sd_colseen s) c true -> cr = set_nth (sd_colrow s) c (length done) ->
      forall c', nth_error cs c' = Some true -> exists r, nth_error cr c' = Some r /\ r <= length done).
    { intros cs cr -> -> c' Hc'. rewrite set_nth_nth in Hc'. rewrite set_nth_nth.
      destruct (c =? c') eqn:Ec.
      - apply Nat.eqb_eq in Ec; subst c'. rewrite Ir. apply Nat.ltb_lt in E. rewrite E. exists (length done). cbn. auto.
      - cbn [andb] in *. exact (Ile c' Hc'). }
    assert (Hin' : forall cs cr, cs = set_nth (sd_colseen s) c true -> cr = set_nth (sd_colrow s) c (length done) ->
      forall c', In c' (map fst (p ++ [(c, d)])) <->
        nth_error cs c' = Some true /\ nth_error cr c' = Some (length done)).
    { intros cs cr -> -> c'. rewrite map_app, in_app_iff. cbn [map fst In]. rewrite !set_nth_nth.
      rewrite Is, Ir. destruct (c =? c') eqn:Ec.
      - apply Nat.eqb_eq in Ec; subst c'. apply Nat.ltb_lt in E. rewrite E. cbn. tauto.
      - cbn. rewrite <- Iin. apply Nat.eqb_neq in Ec. intuition. }
    destruct (negb seen || negb (crow =? length done)) eqn:Eb.
    - assert (Hnew : ~ In c (map fst p)) by (rewrite <- Hiff; congruence).
      rewrite vset_ok by lia. cbn [rbind]. rewrite Icnt, incr_map_seq by auto. cbn [rbind sd_colseen sd_colrow sd_colnewk sd_newk sd_counter sd_indices sd_data].
      rewrite !vset_ok by lia. cbn [rbind]. eexists; split; [reflexivity|].
      assert (Hout : out done (p ++ [(c, d)]) = out done p ++ [(c, d)]).
      { unfold out. rewrite merged_new, app_assoc; auto. }
      constructor; cbn [sd_colseen sd_colrow sd_colnewk sd_newk sd_counter sd_indices sd_data];
        rewrite ?set_nth_length; auto.
      + rewrite Hout, app_length, Ink. cbn; lia.
      + rewrite Hout, map_app, Iidx. reflexivity.
      + rewrite Hout, map_app, Idata. reflexivity.
      + apply map_ext. intros i. rewrite !map_app. cbn [map]. rewrite !nth_snoc_len, map_length.
        rewrite merged_new, app_length by auto. cbn [length]. destruct (i =? length done); lia.
      + exact (Hle' _ _ eq_refl eq_refl).
      + intros c' l1 l2 Hf. rewrite map_app in Hf. cbn [map fst] in Hf. rewrite firsts_snoc in Hf.
        destruct (existsb (Nat.eqb c) (map fst p)) eqn:E3; [apply existsb_in in E3; contradiction|].
        rewrite set_nth_nth, In_. apply Nat.ltb_lt in E. rewrite E, andb_true_r.
        destruct (c =? c') eqn:Ec.
        * apply Nat.eqb_eq in Ec; subst c'. f_equal. rewrite Ink. unfold out. rewrite app_length. f_equal.
          unfold merged_row. rewrite map_length.
          assert (Hl1 : firsts (map fst p) = l1 /\ [] = l2); [|destruct Hl1 as [-> _]; reflexivity].
          { clear -Hf Hnew. assert (Hn : ~ In c (firsts (map fst p))) by (rewrite in_firsts; auto). clear Hnew.
            revert l1 Hf Hn. generalize (firsts (map fst p)) as l. induction l as [|a l IH]; intros [|b l1] Hf Hn; cbn in *.
            - inversion Hf; auto.
            - inversion Hf as [[H1 H2]]. destruct l1; discriminate.
            - inversion Hf; subst. tauto.
            - inversion Hf; subst. destruct (IH l1) as [-> ->]; auto. }
        * destruct (list_eq_dec Nat.eq_dec l2 []) as [->|Hl2].
          { apply app_inj_tail in Hf as [_ ->]. rewrite Nat.eqb_refl in Ec. discriminate. }
          destruct (exists_last Hl2) as (l2' & z & ->).
          rewrite app_comm_cons, app_assoc in Hf. apply app_inj_tail in Hf as [Hf _].
          eapply Ipos; eauto.
    - assert (Hold : In c (map fst p)) by (apply Hiff; auto).
      assert (Hs : exists l1 l2, firsts (map fst p) = l1 ++ c :: l2).
      { apply in_split. apply in_firsts; auto. }
      destruct Hs as (l1 & l2 & Hs). assert (Hp := Ipos c l1 l2 Hs).
      assert (Gp : vget (sd_colnewk s) c = Ok (length (concat (map merged_row done)) + length l1))
        by (unfold vget; rewrite Hp; reflexivity).
      rewrite Gp. cbn [rbind].
      destruct (merged_old p c d l1 l2 Hs) as (m1 & m2 & Hm1 & Hm & Hm').
      assert (Hd1 : sd_data s = map snd (concat (map merged_row done) ++ m1) ++ sum1 (at_col c p) :: map snd m2).
      { rewrite Idata. unfold out. rewrite Hm, !map_app, <- app_assoc. reflexivity. }
      set (pre := map snd (concat (map merged_row done) ++ m1)) in *.
      assert (Hpl : length (concat (map merged_row done)) + length l1 = length pre).
      { unfold pre. rewrite map_length, app_length. lia. }
      assert (Gx : vget (pre ++ sum1 (at_col c p) :: map snd m2) (length pre) = Ok (sum1 (at_col c p))).
      { unfold vget. rewrite nth_error_app2, Nat.sub_diag by lia. reflexivity. }
      rewrite Hpl, Hd1, Gx. cbn [rbind].
      rewrite vset_app. cbn [rbind sd_colseen sd_colrow sd_colnewk sd_newk sd_counter sd_indices sd_data].
      rewrite !vset_ok by lia. cbn [rbind]. eexists; split; [reflexivity|].
      assert (Ho : out done (p ++ [(c, d)]) = concat (map merged_row done) ++ m1 ++ (c, madd (sum1 (at_col c p)) d) :: m2).
      { unfold out. rewrite Hm'. reflexivity. }
      assert (Ho' : out done p = concat (map merged_row done) ++ m1 ++ (c, sum1 (at_col c p)) :: m2).
      { unfold out. rewrite Hm. reflexivity. }
      constructor; cbn [sd_colseen sd_colrow sd_colnewk sd_newk sd_counter sd_indices sd_data];
        rewrite ?set_nth_length; auto.
      + rewrite Ink, Ho, Ho', !app_length. cbn; lia.
      + rewrite Iidx, Ho, Ho', !map_app. reflexivity.
      + rewrite Ho. unfold pre. rewrite !map_app, <- app_assoc. reflexivity.
      + rewrite Icnt. apply map_ext. intros i. f_equal. rewrite !map_app. cbn [map]. do 2 f_equal.
        rewrite Hm, Hm', !app_length. reflexivity.
      + exact (Hle' _ _ eq_refl eq_refl).
      + intros c' a1 a2 Hf. rewrite map_app in Hf. cbn [map fst] in Hf. rewrite firsts_snoc in Hf.
        rewrite (proj2 (existsb_in c (map fst p)) Hold) in Hf. eapply Ipos; eauto.
  Qed.

  Definition cols_ok (cols : nat) (row : list (nat * T)) : bool := forallb (fun e => fst e <? cols) row.

  Lemma sd_row_loop cols (done : list (list (nat * T))) row rest todo : forall p s,
    let rows := done ++ row :: rest in
    let m := csr_of cols rows in
    row = p ++ todo -> inv (length rows) cols done p s ->
    if cols_ok cols todo
    then exists s', foldR (sd_step m (length done)) (seq (length (concat done) + length p) (length todo)) s = Ok s' /\
                    inv (length rows) cols done row s'
    else foldR (sd_step m (length done)) (seq (length (concat done) + length p) (length todo)) s = Panic PIndex.
  Proof.
    induction todo as [|[c d] todo IH]; intros p s rows m Hrow I.
    - cbn. rewrite app_nil_r in Hrow; subst p. eauto.
    - cbn [length seq foldR cols_ok forallb].
      assert (Hcat : concat rows = (concat done ++ p) ++ (c, d) :: todo ++ concat rest).
      { unfold rows. rewrite concat_app. cbn [concat]. rewrite Hrow, <- !app_assoc. reflexivity. }
      assert (Hk : nth_error (concat rows) (length (concat done) + length p) = Some (c, d)).
      { rewrite Hcat, nth_error_app2 by (rewrite app_length; lia).
        rewrite app_length, Nat.sub_diag. reflexivity. }
      pose proof (sd_step_ok m (length rows) cols done p s (length (concat done) + length p) c d I) as Hst.
      specialize (Hst ltac:(unfold rows; rewrite app_length; cbn; lia) eq_refl).
      cbn [m csr_of csr_indices csr_data] in Hst.
      specialize (Hst (map_nth_error fst _ _ Hk) (map_nth_error snd _ _ Hk)).
      cbn [fst]. destruct (c <? cols); cbn [andb].
      + destruct Hst as (s' & E & I'). fold m in E. rewrite E. cbn [rbind].
        specialize (IH (p ++ [(c, d)]) s'). cbv zeta in IH.
        replace (length (concat done) + length (p ++ [(c, d)])) with (S (length (concat done) + length p)) in IH
          by (rewrite app_length; cbn; lia).
        apply IH; [rewrite <- app_assoc; exact Hrow|exact I'].
      + fold m in Hst. rewrite Hst. reflexivity.
  Qed.

  Lemma sd_row_ok cols (done : list (list (nat * T))) row rest s :
    let rows := done ++ row :: rest in
    inv (length rows) cols done [] s ->
    if cols_ok cols row
    then exists s', sd_row (csr_of cols rows) s (length done) = Ok s' /\ inv (length rows) cols done row s'
    else sd_row (csr_of cols rows) s (length done) = Panic PIndex.
  Proof.
    intros rows I. unfold sd_row. cbn [csr_of csr_indptr].
    assert (Hl : length (map (@length (nat * T)) rows) = length rows) by apply map_length.
    assert (HR : length done < length rows) by (unfold rows; rewrite app_length; cbn; lia).
    rewrite !row_starts_get by lia. cbn [rbind].
    assert (Hs : forall l : list (list (nat * T)), list_sum (map (@length _) l) = length (concat l)).
    { induction l; cbn; auto. rewrite app_length, <- IHl. reflexivity. }
    assert (H0 : list_sum (firstn (length done) (map (@length _) rows)) = length (concat done)).
    { rewrite firstn_map, Hs. f_equal. f_equal. unfold rows. rewrite firstn_app, Nat.sub_diag, firstn_all. cbn.
      apply app_nil_r. }
    assert (H1 : list_sum (firstn (S (length done)) (map (@length _) rows)) = length (concat done) + length row).
    { rewrite firstn_map, Hs. replace (firstn (S (length done)) rows) with (done ++ [row]).
      - rewrite concat_app, app_length. cbn. rewrite app_nil_r. reflexivity.
      - unfold rows. rewrite firstn_app, (firstn_all2 done) by lia.
        replace (S (length done) - length done) with 1 by lia. reflexivity. }
    rewrite H0, H1. replace (length (concat done) + length row - length (concat done)) with (length row) by lia.
    pose proof (sd_row_loop cols done row rest row [] s eq_refl I) as HL. cbn [length] in HL.
    rewrite Nat.add_0_r in HL. exact HL.
  Qed.

  Lemma inv_next R cols done row s :
    inv R cols done row s -> inv R cols (done ++ [row]) [] s.
  Proof.
    intros [Is Ir In_ Ink Iidx Idata Icnt Ile Iin Ipos].
    assert (Ho : out (done ++ [row]) [] = out done row).
    { unfold out. rewrite map_app, concat_app. cbn. rewrite !app_nil_r. reflexivity. }
    constructor; rewrite ?Ho; auto.
    - rewrite Icnt. apply map_ext. intros i. rewrite (map_app _ (done ++ [row])). cbn [map merged_row length firsts].
      rewrite nth_snoc_len. destruct (i =? _) eqn:E; auto. apply Nat.eqb_eq in E.
      rewrite nth_overflow; auto. lia.
    - intros c Hc. destruct (Ile c Hc) as (r & Hr & Hle). exists r; split; auto. rewrite app_length; cbn; lia.
    - intros c. cbn. split; [tauto|]. intros [Hs Hr]. rewrite app_length in Hr. cbn in Hr.
      destruct (Ile c Hs) as (r & Hr' & Hle). rewrite Hr in Hr'. inversion Hr'. lia.
    - intros c [|? ?] l2 E; discriminate.
  Qed.

  Lemma sd_rows_loop cols rest : forall (done : list (list (nat * T))) s,
    let rows := done ++ rest in
    inv (length rows) cols done [] s ->
    if forallb (cols_ok cols) rest
    then exists s', foldR (sd_row (csr_of cols rows)) (seq (length done) (length rest)) s = Ok s' /\
                    inv (length rows) cols rows [] s'
    else foldR (sd_row (csr_of cols rows)) (seq (length done) (length rest)) s = Panic PIndex.
  Proof.
    induction rest as [|row rest IH]; intros done s rows I.
    - cbn. exists s; split; auto. unfold rows in *. rewrite app_nil_r in *. exact I.
    - cbn [length seq foldR forallb]. pose proof (sd_row_ok cols done row rest s I) as Hr. cbv zeta in Hr.
      fold rows in Hr. destruct (cols_ok cols row); cbn [andb].
      + destruct Hr as (s' & E & I'). rewrite E. cbn [rbind].
        specialize (IH (done ++ [row]) s'). cbv zeta in IH. rewrite <- app_assoc in IH. cbn [app] in IH.
        fold rows in IH. rewrite app_length in IH. cbn [length] in IH. rewrite Nat.add_1_r in IH.
        apply IH. apply inv_next; auto.
      + rewrite Hr. reflexivity.
  Qed.

  Theorem sum_duplicates_eq cols (rows : list (list (nat * T))) :
    sum_duplicates (csr_of cols rows) =
    if forallb (cols_ok cols) rows then Ok (csr_of cols (map merged_row rows)) else Panic PIndex.
  Proof.
    unfold sum_duplicates. cbn [csr_of csr_rows csr_cols]. fold (csr_of cols rows).
    pose proof (sd_rows_loop cols rows []) as HL. cbv zeta in HL. cbn [app length] in HL.
    specialize (HL (mk_sd (repeat false cols) (repeat 0 cols) (repeat 0 cols) 0 (repeat 0 (length rows)) [] [])).
    destruct (forallb (cols_ok cols) rows).
    - destruct HL as (s' & E & I).
      + constructor; cbn; rewrite ?repeat_length; auto.
        * rewrite repeat_map_seq. apply map_ext. intros [|[|i]]; reflexivity.
        * intros c Hc. exfalso. destruct (Nat.lt_ge_cases c cols) as [Hl|Hl].
          -- pose proof (vget_repeat false cols c Hl) as G. unfold vget in G. rewrite Hc in G. discriminate.
          -- assert (nth_error (repeat false cols) c = None) by (apply nth_error_None; rewrite repeat_length; auto). congruence.
        * intros c. split; [tauto|]. intros [Hc _]. destruct (Nat.lt_ge_cases c cols) as [Hl|Hl].
          -- pose proof (vget_repeat false cols c Hl) as G. unfold vget in G. rewrite Hc in G. discriminate.
          -- assert (nth_error (repeat false cols) c = None) by (apply nth_error_None; rewrite repeat_length; auto). congruence.
        * intros c [|? ?] l2 E; discriminate.
      + rewrite E. cbn [rbind]. destruct I as [Is Ir In_ Ink Iidx Idata Icnt Ile Iin Ipos].
        assert (Ho : out rows [] = concat (map merged_row rows)).
        { unfold out. cbn. apply app_nil_r. }
        rewrite Ho in *.
        assert (Hcnt : sd_counter s' = map (@length _) (map merged_row rows)).
        { rewrite Icnt, map_app. cbn [map merged_row firsts length].
          transitivity (map (fun i => nth i (map (fun l => length (merged_row l)) rows) 0) (seq 0 (length rows))).
          - apply map_ext_in. intros i Hi. apply in_seq in Hi. rewrite app_nth1; auto. rewrite map_length; lia.
          - rewrite map_map. clear. generalize (fun l : list (nat * T) => length (merged_row l)) as f. intros f.
            induction rows as [|r rows IH]; cbn; auto. f_equal. rewrite <- seq_shift, map_map. exact IH. }
        rewrite build_indptr_eq, Hcnt, row_starts_length, !map_length.
        replace (S (length rows) =? length rows + 1) with true by (symmetry; apply Nat.eqb_eq; lia).
        cbn [rassert rbind]. rewrite row_starts_get by (rewrite !map_length; auto). cbn [rbind].
        assert (Hs : forall l : list (list (nat * T)), list_sum (map (@length _) l) = length (concat l)).
        { induction l; cbn; auto. rewrite app_length, <- IHl. reflexivity. }
        rewrite firstn_all2 by (rewrite !map_length; auto). rewrite Hs, Iidx, Idata, !map_length, !Nat.eqb_refl.
        cbn [rassert rbind]. unfold csr_of. rewrite map_length. reflexivity.
    - rewrite HL; [reflexivity|].
      constructor; cbn; rewrite ?repeat_length; auto.
        * rewrite repeat_map_seq. apply map_ext. intros [|[|i]]; reflexivity.
        * intros c Hc. exfalso. destruct (Nat.lt_ge_cases c cols) as [Hl|Hl].
          -- pose proof (vget_repeat false cols c Hl) as G. unfold vget in G. rewrite Hc in G. discriminate.
          -- assert (nth_error (repeat false cols) c = None) by (apply nth_error_None; rewrite repeat_length; auto). congruence.
        * intros c. split; [tauto|]. intros [Hc _]. destruct (Nat.lt_ge_cases c cols) as [Hl|Hl].
          -- pose proof (vget_repeat false cols c Hl) as G. unfold vget in G. rewrite Hc in G. discriminate.
          -- assert (nth_error (repeat false cols) c = None) by (apply nth_error_None; rewrite repeat_length; auto). congruence.
        * intros c [|? ?] l2 E; discriminate.
  Qed.

  (** Merging twice. *)
  Lemma merged_fst (row : list (nat * T)) : map fst (merged_row row) = firsts (map fst row).
  Proof. unfold merged_row. rewrite map_map. cbn. apply map_id. Qed.
  Lemma merged_id (row : list (nat * T)) : NoDup (map fst row) -> merged_row row = row.
  Proof.
    intros Hn. unfold merged_row. rewrite firsts_id by auto. rewrite map_map.
    rewrite <- (map_id row) at 2. apply map_ext_in. intros [c v] Hin. cbn [fst]. f_equal.
    replace (at_col c row) with [v]; [reflexivity|].
    unfold at_col. induction row as [|[c' v'] row IH]; [destruct Hin|].
    cbn [map fst] in Hn. inversion Hn as [|? ? H1 H2]; subst. cbn [filter fst]. destruct Hin as [E|Hin].
    - inversion E; subst. rewrite Nat.eqb_refl. cbn [map snd]. f_equal.
      assert (G : filter (fun e => fst e =? c) row = []); [|rewrite G; reflexivity].
      { clear -H1. induction row as [|[a b] row IH]; cbn in *; auto.
        destruct (a =? c) eqn:E; [apply Nat.eqb_eq in E; tauto|]. apply IH; tauto. }
    - destruct (c' =? c) eqn:E.
      + apply Nat.eqb_eq in E; subst. exfalso. apply H1. apply in_map_iff. exists (c, v); auto.
      + apply IH; auto.
  Qed.
  Lemma merged_idem (row : list (nat * T)) : merged_row (merged_row row) = merged_row row.
  Proof. apply merged_id. rewrite merged_fst. apply firsts_NoDup. Qed.
  Lemma cols_ok_merged cols (row : list (nat * T)) : cols_ok cols (merged_row row) = cols_ok cols row.
  Proof.
    unfold cols_ok. destruct (forallb (fun e : nat * T => fst e <? cols) row) eqn:E.
    - apply forallb_forall. intros e He. rewrite forallb_forall in E.
      apply (in_map fst) in He. rewrite merged_fst in He. apply (proj1 (in_firsts _ _)) in He.
      apply in_map_iff in He as (e' & E1 & He'). rewrite <- E1. auto.
    - destruct (forallb _ (merged_row row)) eqn:E2; auto.
      rewrite <- E. symmetry. apply forallb_forall. intros e He. rewrite forallb_forall in E2.
      assert (Hin : In (fst e) (map fst (merged_row row))).
      { rewrite merged_fst. apply in_firsts. apply in_map; auto. }
      apply in_map_iff in Hin as (e' & E1 & He'). rewrite <- E1. auto.
  Qed.
End SumDup.
