(** The Ipopt callbacks: memory, and the state kept between calls. *)
From Verif Require Import Base Num Matrix Problem NodeInd MatSpec MatrixProofs SumDupProofs ProblemProofs Ipopt IpoptSpec.

(** ** Memory *)
Lemma raw_slice_all {A} (l : list A) n : length l = n -> raw_slice l n = Ok l.
Proof. intros <-. unfold raw_slice. rewrite Nat.leb_refl, firstn_all. reflexivity. Qed.
Lemma is_count_refl k : is_count (Z.of_nat k) k = true.
Proof.
  unfold is_count, to_usize. replace (Z.of_nat k <? 0)%Z with false by (symmetry; apply Z.ltb_ge; lia).
  rewrite Nat2Z.id. apply Nat.eqb_refl.
Qed.
Lemma mem_copy_ok {A} (src d0 d1 d2 : list A) : length d1 = length src ->
  mem_copy src (d0 ++ d1 ++ d2) (length d0) (length src) = Ok (d0 ++ src ++ d2).
Proof.
  intros Hl. unfold mem_copy. rewrite raw_slice_all by reflexivity. cbn [rbind].
  replace (length d0 + length src <=? length (d0 ++ d1 ++ d2)) with true by (symmetry; apply Nat.leb_le; rewrite !app_length; lia).
  f_equal. rewrite firstn_app, Nat.sub_diag, firstn_all, firstn_O, app_nil_r. f_equal. f_equal.
  rewrite app_assoc, skipn_app. rewrite (skipn_all2 (d0 ++ d1)) by (rewrite app_length; lia). rewrite app_length, Hl, Nat.sub_diag. reflexivity.
Qed.
Lemma store_from_ok {A} (vs : list A) : forall done rest, length vs <= length rest ->
  store_from (done ++ rest) (length done) vs = Ok (done ++ vs ++ skipn (length vs) rest, length done + length vs).
Proof.
  unfold store_from. induction vs as [|v vs IH]; intros done rest Hl; cbn [foldR length].
  - rewrite Nat.add_0_r. reflexivity.
  - destruct rest as [|x rest]; [cbn in Hl; lia|]. cbn [fst snd]. rewrite vset_app. cbn [rbind].
    pose proof (IH (done ++ [v]) rest ltac:(cbn in Hl; lia)) as G. rewrite <- !app_assoc in G. cbn [app] in G. rewrite app_length in G. cbn [length] in G.
    replace (S (length done)) with (length done + 1) by lia. rewrite G. cbn [skipn]. f_equal. f_equal. lia.
Qed.
Lemma to_i32_ok n : (Z.of_nat n <= 2147483647)%Z -> to_i32 n = Ok (Z.of_nat n).
Proof. intros Hn. unfold to_i32. rewrite (proj2 (Z.leb_le _ _) Hn). reflexivity. Qed.

Section Cb.
  Context {T : Type} `{Num T}.

  Lemma entries_data (m : coo T) : coo_wf m -> map snd (entries m) = coo_data m.
  Proof.
    intros [W1 W2]. unfold entries. assert (L : length (combine (coo_ri m) (coo_ci m)) = length (coo_data m)) by (rewrite combine_length; lia).
    revert L. generalize (combine (coo_ri m) (coo_ci m)), (coo_data m). clear. induction l as [|a l IH]; intros [|d l0] L; try discriminate; [reflexivity|].
    cbn. f_equal. apply IH. cbn in L. lia.
  Qed.
  Lemma store_values_ok (f : T -> T) m done rest : coo_wf m -> coo_nnz m <= length rest ->
    store_values f (done ++ rest, length done) m = Ok (done ++ map f (coo_data m) ++ skipn (coo_nnz m) rest, length done + coo_nnz m).
  Proof.
    intros W Hl. unfold store_values. rewrite coo_items_ok by exact W. cbn [rbind fst snd].
    rewrite <- (map_map snd f), entries_data by exact W.
    assert (L : length (map f (coo_data m)) = coo_nnz m) by (rewrite map_length; apply W). rewrite store_from_ok by (rewrite L; exact Hl). rewrite L. reflexivity.
  Qed.
  Lemma store_pattern_ok (m : coo T) dr dc rr rc : coo_wf m -> indices_ok m ->
    (Z.of_nat (coo_rows m) <= 2147483647)%Z -> (Z.of_nat (coo_cols m) <= 2147483647)%Z ->
    length dr = length dc -> coo_nnz m <= length rr -> coo_nnz m <= length rc ->
    store_pattern (dr ++ rr, dc ++ rc, length dr) m =
    Ok (dr ++ rows_at 0 m ++ skipn (coo_nnz m) rr, dc ++ cols_at m ++ skipn (coo_nnz m) rc, length dr + coo_nnz m).
  Proof.
    intros W Hi S1 S2. unfold store_pattern. rewrite coo_items_ok by exact W. cbn [rbind]. unfold rows_at, cols_at.
    rewrite <- (entries_length m W). unfold indices_ok in Hi. revert Hi. generalize (entries m). intros es. revert dr dc rr rc.
    induction es as [|[[i j] v] es IH]; intros dr dc rr rc Hi Hd H1 H2; cbn [foldR length map fst snd skipn].
    - rewrite Nat.add_0_r. reflexivity.
    - destruct rr as [|r rr]; [cbn in H1; lia|]. destruct rc as [|c rc]; [cbn in H2; lia|]. cbn [length] in *.
      destruct (Hi i j v (or_introl eq_refl)) as [Hr Hc].
      rewrite (to_i32_ok i) by lia. cbn [rbind]. rewrite vset_app. cbn [rbind]. rewrite (to_i32_ok j) by lia. cbn [rbind]. rewrite Hd, vset_app. cbn [rbind].
      pose proof (IH (dr ++ [Z.of_nat i]) (dc ++ [Z.of_nat j]) rr rc) as G. rewrite <- !app_assoc in G. cbn [app] in G. rewrite !app_length in G. cbn [length] in G.
      rewrite <- Hd. replace (S (length dr)) with (length dr + 1) by lia. rewrite G by (try (intros; eapply Hi; right; eassumption); lia).
      cbn [skipn Nat.add]. f_equal. f_equal. lia.
  Qed.

  (** ** The parts of a problem that never change *)
  Record fixed (q0 q : minlp T) : Prop := {
    fx_a : m_a q = m_a q0; fx_b : m_b q = m_b q0; fx_nf : m_nf q = m_nf q0;
    fx_wa : coo_wf (m_a q0); fx_ia : indices_ok (m_a q0);
    fx_lb : length (m_b q0) = coo_rows (m_a q0);
    fx_lg : length (b_gphi (m_bufs q)) = m_nx q0;
    fx_hphi : same_structure (b_hphi (m_bufs q0)) (b_hphi (m_bufs q));
    fx_whphi : coo_wf (b_hphi (m_bufs q)); fx_ihphi : indices_ok (b_hphi (m_bufs q0));
    fx_rhphi : coo_rows (b_hphi (m_bufs q0)) = m_nx q0 /\ coo_cols (b_hphi (m_bufs q0)) = m_nx q0;
    fx_j : same_structure (b_j (m_bufs q0)) (b_j (m_bufs q));
    fx_wj : coo_wf (b_j (m_bufs q)); fx_ij : indices_ok (b_j (m_bufs q0));
    fx_rj : coo_rows (b_j (m_bufs q0)) = m_nf q0 /\ coo_cols (b_j (m_bufs q0)) = m_nx q0;
    fx_hr : coo_ri (m_hcomb q) = concat (map coo_ri (b_h (m_bufs q0)));
    fx_hc : coo_ci (m_hcomb q) = concat (map coo_ci (b_h (m_bufs q0)));
    fx_hd : coo_rows (m_hcomb q) = m_nx q0 /\ coo_cols (m_hcomb q) = m_nx q0;
    fx_whc : coo_wf (m_hcomb q); fx_nhc : coo_nnz (m_hcomb q) = list_sum (map (@coo_nnz T) (b_h (m_bufs q0)));
    fx_ihc : indices_ok (m_hcomb q);
    fx_lh : length (b_h (m_bufs q)) = m_nf q0
  }.
  Lemma same_wf (m m' : coo T) : same_structure m m' -> coo_wf m -> coo_wf m'.
  Proof. intros (_ & _ & E1 & E2 & E3) [W1 W2]. unfold coo_wf. rewrite E1, E2, E3. auto. Qed.
  Lemma same_pattern (m m' : coo T) : same_structure m m' -> coo_wf m -> map fst (entries m') = map fst (entries m).
  Proof.
    intros S W. pose proof (same_wf _ _ S W) as W'. destruct S as (_ & _ & E1 & E2 & _). unfold entries.
    assert (G : forall A B (l : list A) (l' : list B), length l <= length l' -> map fst (combine l l') = l).
    { intros A B l. induction l as [|a l IHl]; intros [|b l'] Hle; cbn in *; auto; try lia. f_equal. apply IHl; lia. }
    destruct W as [W1 W2]. destruct W' as [V1 V2]. rewrite !G by (rewrite combine_length; lia). rewrite E1, E2. reflexivity.
  Qed.
  Lemma same_indices (m m' : coo T) : same_structure m m' -> coo_wf m -> indices_ok m -> indices_ok m'.
  Proof.
    intros S W Hi i j v Hin. pose proof (same_pattern _ _ S W) as P. destruct S as (E1 & E2 & _). rewrite E1, E2.
    assert (Hf : In (i, j) (map fst (entries m'))) by (change (i, j) with (fst (i, j, v)); apply in_map; exact Hin).
    rewrite P in Hf. apply in_map_iff in Hf. destruct Hf as ([[i' j'] v'] & Ee & Hf). cbn in Ee. injection Ee as -> ->. apply (Hi _ _ _ Hf).
  Qed.
  Lemma same_rows (m m' : coo T) off : same_structure m m' -> coo_wf m -> rows_at off m' = rows_at off m /\ cols_at m' = cols_at m.
  Proof.
    intros S W. pose proof (same_pattern _ _ S W) as P. unfold rows_at, cols_at. split.
    - rewrite <- (map_map fst (fun p : nat * nat => Z.of_nat (off + fst p)) (entries m')), P, map_map. reflexivity.
    - rewrite <- (map_map fst (fun p : nat * nat => Z.of_nat (snd p)) (entries m')), P, map_map. reflexivity.
  Qed.
  Lemma same_nnz (m m' : coo T) : same_structure m m' -> coo_nnz m' = coo_nnz m.
  Proof. intros (_ & _ & E & _). unfold coo_nnz. rewrite E. reflexivity. Qed.

  Lemma fixed_ok q0 q : nlp_sane q0 -> evolves q0 q -> fixed q0 q.
  Proof.
    intros [M _ _] Hq. destruct M as (hphi & a & b & j & h & l & u & p & x0 & ev & E & B1 & B2 & B3 & B4 & Hk & I1 & I2 & I3 & I4).
    assert (Hh : Forall coo_wf h) by exact B4.
    destruct (minlp_new_inv _ _ _ _ _ _ _ _ _ _ _ Hh E) as [D ->].
    destruct (evolves_inv _ _ _ _ _ _ _ _ _ _ _ Hk Hh D Hq) as (bf & d & Hs & Hd & ->).
    destruct Hs as (S1 & S2 & S3 & S4 & S5). destruct D as (D1 & D2 & D3 & D4 & D5 & D6 & D7 & D8 & D9).
    unfold made, m_nx, m_nf in *. cbn [m_a m_b m_bufs m_hcomb b_gphi b_f b_hphi b_j b_h coo_ri coo_ci coo_rows coo_cols] in *.
    rewrite repeat_length in *.
    assert (Lr : length (concat (map coo_ri h)) = list_sum (map (@coo_nnz T) h)).
    { clear. induction h as [|m h IH]; [reflexivity|]. cbn [map concat]. rewrite app_length, IH. reflexivity. }
    assert (Lc : length (concat (map coo_ci h)) = list_sum (map (@coo_nnz T) h)).
    { clear -Hh. induction Hh as [|m h W Hh IH]; [reflexivity|]. cbn [map concat]. rewrite app_length, IH. destruct W as [W1 _]. rewrite W1. reflexivity. }
    constructor; unfold m_nx, m_nf; cbn [m_a m_b m_bufs m_hcomb b_gphi b_f b_hphi b_j b_h coo_ri coo_ci coo_rows coo_cols]; rewrite ?repeat_length; auto.
    - apply (same_wf _ _ S3 B1).
    - apply (same_wf _ _ S4 B3).
    - split; cbn [coo_ri coo_ci coo_data]; lia.
    - clear -I4 D6 Hh Hd Lr. intros i c v Hin. cbn [coo_rows coo_cols].
      unfold entries in Hin. cbn [coo_ri coo_ci coo_data] in Hin. apply in_combine_l in Hin.
      revert Hin D6 I4. clear -Hh. induction Hh as [|m h W Hh IH]; intros Hin D6 I4; [destruct Hin|]. cbn [map concat] in Hin.
      assert (Happ : forall A B (l1 l2 : list A) (r1 r2 : list B), length l1 = length r1 ->
                combine (l1 ++ l2) (r1 ++ r2) = combine l1 r1 ++ combine l2 r2).
      { intros A B l1. induction l1 as [|a0 l1 IHl]; intros l2 [|b0 r1] r2 HL; try discriminate; cbn; auto. f_equal. apply IHl. cbn in HL; lia. }
      destruct W as [W1 W2]. rewrite Happ in Hin by lia. apply in_app_iff in Hin. inversion I4 as [|? ? Im I4']; subst. destruct Hin as [Hin|Hin].
      + apply In_nth_error in Hin. destruct Hin as [k Hk].
        assert (Hv : exists v, nth_error (coo_data m) k = Some v).
        { destruct (nth_error (coo_data m) k) eqn:En; [eauto|]. apply nth_error_None in En.
          assert (k < length (combine (coo_ri m) (coo_ci m))) by (apply nth_error_Some; congruence). rewrite combine_length in *. lia. }
        destruct Hv as [w Hw]. destruct (Im i c w) as [R1 R2].
        * unfold entries. apply nth_error_In with k. apply combine_nth_error; assumption.
        * destruct (D6 m (or_introl eq_refl)) as [-> ->] || (destruct (D6 m (or_introl eq_refl)) as [Q1 Q2]; rewrite Q1 in R1; rewrite Q2 in R2; auto).
      + apply IH; auto. intros hh Hhh. apply D6. right. exact Hhh.
    - assert (length (b_h bf) = length h); [|lia]. clear -S5. induction S5; cbn; auto.
  Qed.

  (** ** One callback *)
  Definition hcomb_is (q0 : minlp T) (d0 : list T) (lam : option (list T * list T)) (d : list T) : Prop :=
    match lam with
    | None => d = d0
    | Some (x, la) => exists bf, values_at q0 x bf /\ d = combined (b_h bf) (skipn (m_na q0) la)
    end.
  Record inv (q0 : minlp T) (d0 : list T) (last : option (list T)) (lam : option (list T * list T)) (p : nlp T) : Prop := {
    iv_ev : evolves q0 (nlp_base p);
    iv_last : forall x, last = Some x -> values_at q0 x (m_bufs (nlp_base p));
    iv_lam : hcomb_is q0 d0 lam (coo_data (m_hcomb (nlp_base p)))
  }.
  Lemma values_fun (q0 : minlp T) x bf bf' : values_at q0 x bf -> values_at q0 x bf' -> bf = bf'.
  Proof. intros (q & E & <-) (q' & E' & <-). congruence. Qed.

  Lemma update_ok q0 d0 last lam p x new_x : nlp_sane q0 -> inv q0 d0 last lam p -> length x = m_nx q0 ->
    last = Some x \/ (new_x =? 1)%Z = true ->
    exists q, update p (Some x) new_x = Ok (Some q) /\ inv q0 d0 (Some x) lam q /\ values_at q0 x (m_bufs (nlp_base q)).
  Proof.
    intros Hs [I1 I2 I3] Hx Hc. pose proof (fixed_ok _ _ Hs I1) as Fx. unfold update.
    destruct (new_x =? 1)%Z.
    - assert (En : m_nx (nlp_base p) = m_nx q0) by (unfold m_nx; rewrite (fx_a _ _ Fx); reflexivity).
      rewrite raw_slice_all by congruence. cbn [rbind].
      destruct (ns_repeat _ Hs _ x I1 Hx) as (q' & q0' & E1 & E2 & E3).
      unfold nlp_evaluate. rewrite E1. cbn [rbind]. exists (mk_nlp q'). split; [reflexivity|].
      assert (V : values_at q0 x (m_bufs q')) by (exists q0'; split; [exact E2|congruence]).
      split; [|exact V]. constructor; cbn [nlp_base].
      + eapply ev_eval; eassumption.
      + intros y Ey. injection Ey as <-. exact V.
      + unfold minlp_evaluate in E1. destruct (m_eval _ _ _); [|discriminate]. cbn [rbind] in E1. injection E1 as <-. exact I3.
    - destruct Hc as [->|]; [|discriminate]. exists p. split; [reflexivity|]. split; [constructor; auto|]. apply I2. reflexivity.
  Qed.

  Lemma combine_ok q0 d0 x lam lam0 p la : nlp_sane q0 -> inv q0 d0 (Some x) lam p -> length la = m_na q0 + m_nf q0 ->
    exists q, nlp_combine_h p (skipn (m_na q0) la) = Ok q /\ inv q0 d0 (Some x) (step_lambda lam0 (EvalH 0 (Some x) 0 n0 0 (Some la) 1 0 None None (Some []))) q /\
      m_bufs (nlp_base q) = m_bufs (nlp_base p).
  Proof.
    intros Hs [I1 I2 I3] Hla.
    assert (Hs' := Hs). destruct Hs' as [M _ _]. destruct M as (hphi & a & b & j & h & l & u & pp & x0 & ev & E & B1 & B2 & B3 & B4 & Hk & _).
    assert (Hh : Forall coo_wf h) by exact B4.
    destruct (minlp_new_inv _ _ _ _ _ _ _ _ _ _ _ Hh E) as [D Eq].
    assert (Hnf : m_nf q0 = coo_rows j) by (rewrite Eq; unfold m_nf, made; cbn; apply repeat_length).
    assert (I1' := I1). rewrite Eq in I1'.
    destruct (combine_h_ok _ _ _ _ _ _ _ _ _ _ _ (skipn (m_na q0) la) Hk Hh D I1') as [G _].
    destruct G as (q' & E1 & E2 & E3 & _ & _ & _ & _ & _ & _ & _ & _ & E4); [rewrite skipn_length; lia|].
    exists (mk_nlp q'). unfold nlp_combine_h. rewrite E1. split; [reflexivity|]. cbn [nlp_base]. split; [|exact E2].
    assert (V : evolves q0 q') by (eapply ev_comb; eassumption).
    constructor; cbn [nlp_base].
    - exact V.
    - intros y Ey. rewrite E2. apply I2. exact Ey.
    - cbn [step_lambda]. change ((1 =? 1)%Z) with true. cbn [hcomb_is]. exists (m_bufs (nlp_base p)). split; [apply I2; reflexivity|].
      rewrite <- entries_data by apply (fx_whc _ _ (fixed_ok _ _ Hs V)). rewrite E4.
      assert (Wh : Forall coo_wf (b_h (m_bufs (nlp_base p)))).
      { destruct (evolves_inv _ _ _ _ _ _ _ _ _ _ _ Hk Hh D I1') as (bf & d & Sh & _ & Ep). rewrite Ep. cbn [m_bufs].
        destruct Sh as (_ & _ & _ & _ & S5). cbn [made m_bufs b_h] in S5. clear -S5 Hh.
        induction S5 as [|m m' h h' Hm Hl IH]; constructor; inversion Hh; subst; auto. eapply same_wf; eassumption. }
      unfold combined. generalize (skipn (m_na q0) la). intros nu. clear -Wh. revert nu. induction Wh as [|m hs W Wh IH]; intros [|v nu]; try reflexivity.
      cbn [combine map concat fst snd]. rewrite map_app, map_map. cbn [snd]. f_equal; [|apply IH]. rewrite <- (entries_data m W), map_map. reflexivity.
  Qed.

  (** What each callback answers. *)
  Definition full_right (q0 : minlp T) (d0 : list T) (lam : option (list T * list T)) (c : cb T) (r : reply T) : Prop :=
    right_values q0 c r /\
    match c with
    | EvalJacG _ _ _ _ _ _ _ None =>
      r = mk_reply true None (Some (rows_at 0 (m_a q0) ++ rows_at 0 (b_j (m_bufs q0)))) (Some (cols_at (m_a q0) ++ cols_at (b_j (m_bufs q0))))
    | EvalH _ _ _ _ _ _ _ _ _ _ None =>
      r = mk_reply true None (Some (rows_at 0 (b_hphi (m_bufs q0)) ++ map Z.of_nat (concat (map coo_ri (b_h (m_bufs q0))))))
                             (Some (cols_at (b_hphi (m_bufs q0)) ++ map Z.of_nat (concat (map coo_ci (b_h (m_bufs q0))))))
    | EvalH _ (Some x) new_x factor _ _ new_lambda _ ir jc (Some mem) =>
      if ((new_x =? 1) || (new_lambda =? 1))%Z then
        exists bf d, values_at q0 x bf /\ hcomb_is q0 d0 (step_lambda lam c) d /\
          r = mk_reply true (Some (map (fun v => nmul factor v) (coo_data (b_hphi bf)) ++ d)) ir jc
      else r = mk_reply true (Some mem) ir jc
    | _ => True
    end.

  Lemma count3 q0 q n m k : fixed q0 q -> n = Z.of_nat (m_nx q0) -> m = Z.of_nat (m_na q0 + m_nf q0) ->
    is_count n (m_nx q) = true /\ is_count m (m_na q + m_nf q) = true /\
    (k = Z.of_nat (nnzj q0) -> is_count k (coo_nnz (m_a q) + coo_nnz (b_j (m_bufs q))) = true) /\
    (k = Z.of_nat (nnzh q0) -> is_count k (coo_nnz (b_hphi (m_bufs q)) + coo_nnz (m_hcomb q)) = true).
  Proof.
    intros Fx -> ->.
    assert (En : m_nx q = m_nx q0) by (unfold m_nx; rewrite (fx_a _ _ Fx); reflexivity).
    assert (Ea : m_na q = m_na q0) by (unfold m_na; rewrite (fx_b _ _ Fx); reflexivity).
    rewrite En, Ea, (fx_nf _ _ Fx). repeat split; try apply is_count_refl.
    - intros ->. unfold nnzj. rewrite (fx_a _ _ Fx), (same_nnz _ _ (fx_j _ _ Fx)). apply is_count_refl.
    - intros ->. unfold nnzh. rewrite (same_nnz _ _ (fx_hphi _ _ Fx)), (fx_nhc _ _ Fx). apply is_count_refl.
  Qed.

  Definition next_point (last : option (list T)) (c : cb T) : option (list T) := match point_of c with Some x => Some x | None => last end.

  Lemma two_patterns (m1 m2 : coo T) ir jc : coo_wf m1 -> coo_wf m2 -> indices_ok m1 -> indices_ok m2 ->
    (Z.of_nat (coo_rows m1) <= 2147483647)%Z -> (Z.of_nat (coo_cols m1) <= 2147483647)%Z ->
    (Z.of_nat (coo_rows m2) <= 2147483647)%Z -> (Z.of_nat (coo_cols m2) <= 2147483647)%Z ->
    length ir = coo_nnz m1 + coo_nnz m2 -> length jc = coo_nnz m1 + coo_nnz m2 ->
    rbind (store_pattern (ir, jc, 0) m1) (fun st => store_pattern st m2) =
    Ok (rows_at 0 m1 ++ rows_at 0 m2, cols_at m1 ++ cols_at m2, coo_nnz m1 + coo_nnz m2).
  Proof.
    intros W1 W2 I1 I2 S1 S2 S3 S4 L1 L2.
    pose proof (store_pattern_ok m1 [] [] ir jc W1 I1 S1 S2 eq_refl ltac:(lia) ltac:(lia)) as G. cbn [app length Nat.add] in G. rewrite G. cbn [rbind].
    assert (N1 : length (rows_at 0 m1) = coo_nnz m1) by (unfold rows_at; rewrite map_length; apply entries_length; exact W1).
    assert (N2 : length (cols_at m1) = coo_nnz m1) by (unfold cols_at; rewrite map_length; apply entries_length; exact W1).
    pose proof (store_pattern_ok m2 (rows_at 0 m1) (cols_at m1) (skipn (coo_nnz m1) ir) (skipn (coo_nnz m1) jc) W2 I2 S3 S4
                  ltac:(congruence) ltac:(rewrite skipn_length; lia) ltac:(rewrite skipn_length; lia)) as G2.
    rewrite N1 in G2. rewrite G2.
    rewrite !skipn_all2 by (rewrite skipn_length; lia). rewrite !app_nil_r. reflexivity.
  Qed.
  Lemma two_values (f : T -> T) (m1 m2 : coo T) mem : coo_wf m1 -> coo_wf m2 -> length mem = coo_nnz m1 + coo_nnz m2 ->
    rbind (store_values f (mem, 0) m1) (fun st => store_values (fun v => v) st m2) =
    Ok (map f (coo_data m1) ++ coo_data m2, coo_nnz m1 + coo_nnz m2).
  Proof.
    intros W1 W2 L. pose proof (store_values_ok f m1 [] mem W1 ltac:(lia)) as G. cbn [app length Nat.add] in G. rewrite G. cbn [rbind].
    assert (N : length (map f (coo_data m1)) = coo_nnz m1) by (rewrite map_length; apply W1).
    pose proof (store_values_ok (fun v => v) m2 (map f (coo_data m1)) (skipn (coo_nnz m1) mem) W2 ltac:(rewrite skipn_length; lia)) as G2.
    rewrite N in G2. rewrite G2.
    rewrite skipn_all2 by (rewrite skipn_length; lia). rewrite map_id, app_nil_r. reflexivity.
  Qed.
  Lemma rbind_assoc {A B C} (m : res A) (f : A -> res B) (g : B -> res C) : rbind (rbind m f) g = rbind m (fun a => rbind (f a) g).
  Proof. destruct m; reflexivity. Qed.

  Lemma callback_ok q0 d0 last lam p c : nlp_sane q0 -> inv q0 d0 last lam p -> well_called q0 c ->
    match point_of c with Some x => last = Some x \/ flag_of c = true | None => True end ->
    exists p' r, callback p c = Ok (p', r) /\ inv q0 d0 (next_point last c) (step_lambda lam c) p' /\ full_right q0 d0 lam c r.
  Proof.
    intros Hs Hi Hw Hc. pose proof (fixed_ok _ _ Hs (iv_ev _ _ _ _ _ Hi)) as Fx.
    destruct (ns_small _ Hs) as [Sx Sm].
    destruct c as [n x new_x obj|n x new_x g|n x new_x m g|n x new_x m k ir jc vals|n x new_x fac m la nl k ir jc vals]; cbn [callback well_called point_of flag_of] in *.
    - destruct Hw as (Hn & (xs & -> & Hx) & (mem & -> & Hm)). destruct (count3 q0 _ n _ 0%Z Fx Hn eq_refl) as (C1 & _).
      unfold eval_f_cb. rewrite C1. destruct (update_ok q0 d0 last lam p xs new_x Hs Hi Hx Hc) as (q & E & I' & V). rewrite E. cbn [rbind].
      destruct mem as [|v [|]]; try discriminate. exists q, (mk_reply true (Some [b_phi (m_bufs (nlp_base q))]) None None). split; [reflexivity|].
      split; [exact I'|]. split; [|exact I]. cbn [right_values]. eexists; split; [exact V|reflexivity].
    - destruct Hw as (Hn & (xs & -> & Hx) & (mem & -> & Hm)). destruct (count3 q0 _ n _ 0%Z Fx Hn eq_refl) as (C1 & _).
      unfold eval_grad_f_cb. rewrite C1. destruct (update_ok q0 d0 last lam p xs new_x Hs Hi Hx Hc) as (q & E & I' & V). rewrite E. cbn [rbind].
      pose proof (fixed_ok _ _ Hs (iv_ev _ _ _ _ _ I')) as Fq.
      assert (En : m_nx (nlp_base q) = length (b_gphi (m_bufs (nlp_base q)))) by (rewrite (fx_lg _ _ Fq); unfold m_nx; rewrite (fx_a _ _ Fq); reflexivity).
      pose proof (mem_copy_ok (b_gphi (m_bufs (nlp_base q))) [] mem [] ltac:(rewrite Hm, (fx_lg _ _ Fq); reflexivity)) as G.
      cbn [app length] in G. rewrite !app_nil_r in G. rewrite En, G. cbn [rbind].
      eexists; eexists; split; [reflexivity|]. split; [exact I'|]. split; [|exact I]. cbn [right_values]. eexists; split; [exact V|reflexivity].
    - destruct Hw as (Hn & Hm' & (xs & -> & Hx) & (mem & -> & Hm)). destruct (count3 q0 _ n m 0%Z Fx Hn Hm') as (C1 & C2 & _).
      unfold eval_g_cb. rewrite C1, C2.
      assert (En : m_nx (nlp_base p) = m_nx q0) by (unfold m_nx; rewrite (fx_a _ _ Fx); reflexivity).
      rewrite raw_slice_all by congruence. cbn [rbind].
      destruct (update_ok q0 d0 last lam p xs new_x Hs Hi Hx Hc) as (q & E & I' & V). rewrite E. cbn [rbind].
      pose proof (fixed_ok _ _ Hs (iv_ev _ _ _ _ _ I')) as Fq. rewrite (fx_a _ _ Fq), (fx_b _ _ Fq).
      rewrite coo_mul_eq by apply (fx_wa _ _ Fx). rewrite Hx. unfold m_nx at 1. rewrite Nat.eqb_refl.
      replace (forallb _ _) with true.
      2:{ symmetry. apply forallb_forall. intros [[i j] v] Hin. destruct (fx_ia _ _ Fx i j v Hin) as [A1 A2]. unfold in_range. cbn [fst snd].
          apply andb_true_iff. split; apply Nat.ltb_lt; assumption. }
      cbn [rbind]. rewrite map_length, seq_length, (fx_lb _ _ Fx), Nat.eqb_refl. cbn [rassert rbind].
      fold (residuals q0 xs).
      assert (Lr : length (residuals q0 xs) = m_na q0).
      { unfold residuals. rewrite map_length, combine_length, map_length, seq_length, (fx_lb _ _ Fx), Nat.min_id. unfold m_na. symmetry. apply (fx_lb _ _ Fx). }
      assert (Ena : m_na (nlp_base q) = m_na q0) by (unfold m_na; rewrite (fx_b _ _ Fq); reflexivity). rewrite Ena.
      pose proof (mem_copy_ok (residuals q0 xs) [] (firstn (m_na q0) mem) (skipn (m_na q0) mem)) as G1.
      rewrite firstn_skipn in G1. cbn [app length] in G1. rewrite Lr in G1. rewrite G1 by (rewrite firstn_length; lia). cbn [rbind].
      pose proof (mem_copy_ok (b_f (m_bufs (nlp_base q))) (residuals q0 xs) (skipn (m_na q0) mem) []) as G2.
      rewrite !app_nil_r, Lr in G2. fold (m_nf (nlp_base q)) in G2. rewrite G2 by (rewrite skipn_length, (fx_nf _ _ Fq); lia). cbn [rbind].
      eexists; eexists; split; [reflexivity|]. split; [exact I'|]. split; [|exact I]. cbn [right_values]. eexists; split; [exact V|reflexivity].
    - destruct Hw as (Hn & Hm & Hk & Hv). destruct (count3 q0 _ n m k Fx Hn Hm) as (C1 & C2 & C3 & _). specialize (C3 Hk).
      unfold eval_jac_g_cb. rewrite C1, C2, C3. cbn [andb].
      destruct Hv as [(-> & (ir' & -> & Li) & (jc' & -> & Lj))|((xs & -> & Hx) & (mem & -> & Lm))].
      + rewrite (fx_a _ _ Fx).
        assert (N := same_nnz _ _ (fx_j _ _ Fx)). unfold nnzj in Li, Lj. rewrite <- N in Li, Lj.
        destruct (fx_rj _ _ Fx) as [Rj Cj]. assert (Sj := fx_j _ _ Fx). destruct Sj as (R1 & R2 & _).
        assert (W0 : coo_wf (b_j (m_bufs q0))).
        { destruct (fx_wj _ _ Fx) as [w1 w2]. destruct (fx_j _ _ Fx) as (_ & _ & e1 & e2 & e3). split; congruence. }
        rewrite <- rbind_assoc. rewrite two_patterns; try assumption.
        2: apply (fx_wa _ _ Fx). 2: apply (fx_wj _ _ Fx). 2: apply (fx_ia _ _ Fx). 2: apply (same_indices _ _ (fx_j _ _ Fx) W0 (fx_ij _ _ Fx)).
        2: rewrite <- (fx_lb _ _ Fx); unfold m_na in Sm; lia. 2: rewrite R1, Rj; lia. 2: rewrite R2, Cj; lia.
        cbn [rbind fst snd]. eexists; eexists; split; [reflexivity|]. split; [exact Hi|].
        destruct (same_rows _ _ 0 (fx_j _ _ Fx) W0) as [-> ->]. split; [|reflexivity]. destruct x; reflexivity.
      + cbn [point_of flag_of] in Hc. destruct (update_ok q0 d0 last lam p xs new_x Hs Hi Hx Hc) as (q & E & I' & V). rewrite E. cbn [rbind].
        pose proof (fixed_ok _ _ Hs (iv_ev _ _ _ _ _ I')) as Fq. rewrite (fx_a _ _ Fq).
        rewrite <- rbind_assoc, two_values; [|apply (fx_wa _ _ Fx)|apply (fx_wj _ _ Fq)|rewrite (same_nnz _ _ (fx_j _ _ Fq)); exact Lm].
        cbn [rbind fst]. rewrite map_id. eexists; eexists; split; [reflexivity|]. split; [exact I'|]. split; [|exact I]. cbn [right_values]. eexists; split; [exact V|reflexivity].
    - destruct Hw as (Hn & Hm & Hk & Hv). destruct (count3 q0 _ n m k Fx Hn Hm) as (C1 & C2 & _ & C3). specialize (C3 Hk).
      unfold eval_h_cb. rewrite C1, C2, C3. cbn [andb].
      destruct Hv as [(-> & (ir' & -> & Li) & (jc' & -> & Lj))|((xs & -> & Hx) & (mem & -> & Lm) & (la' & -> & Ll))].
      + assert (N := same_nnz _ _ (fx_hphi _ _ Fx)). unfold nnzh in Li, Lj. rewrite <- N, <- (fx_nhc _ _ Fx) in Li, Lj.
        destruct (fx_rhphi _ _ Fx) as [Rj Cj]. assert (Sj := fx_hphi _ _ Fx). destruct Sj as (R1 & R2 & _). destruct (fx_hd _ _ Fx) as [Rh Ch].
        assert (W0 : coo_wf (b_hphi (m_bufs q0))).
        { destruct (fx_whphi _ _ Fx) as [w1 w2]. destruct (fx_hphi _ _ Fx) as (_ & _ & e1 & e2 & e3). split; congruence. }
        rewrite <- rbind_assoc. rewrite two_patterns; try assumption.
        2: apply (fx_whphi _ _ Fx). 2: apply (fx_whc _ _ Fx). 2: apply (same_indices _ _ (fx_hphi _ _ Fx) W0 (fx_ihphi _ _ Fx)). 2: apply (fx_ihc _ _ Fx).
        2: rewrite R1, Rj; lia. 2: rewrite R2, Cj; lia. 2: rewrite Rh; lia. 2: rewrite Ch; lia.
        cbn [rbind fst snd]. eexists; eexists; split; [reflexivity|]. split; [|split].
        * unfold next_point. cbn [point_of]. replace (step_lambda lam _) with lam by (destruct x, la; reflexivity). exact Hi.
        * destruct x; reflexivity.
        * destruct (same_rows _ _ 0 (fx_hphi _ _ Fx) W0) as [-> ->].
          assert (Wh := fx_whc _ _ Fx).
          assert (Er : rows_at 0 (m_hcomb (nlp_base p)) = map Z.of_nat (concat (map coo_ri (b_h (m_bufs q0))))).
          { rewrite <- (fx_hr _ _ Fx), <- (entries_rows _ Wh), map_map. reflexivity. }
          assert (Ec : cols_at (m_hcomb (nlp_base p)) = map Z.of_nat (concat (map coo_ci (b_h (m_bufs q0))))).
          { rewrite <- (fx_hc _ _ Fx). unfold cols_at, entries. rewrite <- (map_map (fun e => snd (fst e)) Z.of_nat). f_equal.
            destruct Wh as [W1 W2]. rewrite <- (map_map fst snd).
            assert (G1 : forall A B (l : list A) (l' : list B), length l <= length l' -> map fst (combine l l') = l).
            { intros A B l. induction l as [|a l IHl]; intros [|b l'] Hle; cbn in *; auto; try lia. f_equal. apply IHl; lia. }
            assert (G2 : forall A B (l : list A) (l' : list B), length l' <= length l -> map snd (combine l l') = l').
            { intros A B l l'; revert l. induction l' as [|b l' IHl]; intros [|a l] Hle; cbn in *; auto; try lia. f_equal. apply IHl; lia. }
            rewrite G1 by (rewrite combine_length; lia). apply G2; lia. }
          rewrite Er, Ec. destruct x; reflexivity.
      + cbn [point_of flag_of] in Hc. destruct (update_ok q0 d0 last lam p xs new_x Hs Hi Hx Hc) as (q & E & I' & V). rewrite E. cbn [rbind].
        pose proof (fixed_ok _ _ Hs (iv_ev _ _ _ _ _ I')) as Fq.
        assert (Ena : m_na (nlp_base q) = m_na q0) by (unfold m_na; rewrite (fx_b _ _ Fq); reflexivity).
        destruct (nl =? 1)%Z eqn:En.
        * rewrite Ena. rewrite raw_slice_all by (rewrite skipn_length, (fx_nf _ _ Fq); lia). cbn [rbind].
          destruct (combine_ok q0 d0 xs lam lam q la' Hs I' Ll) as (q2 & E2 & I2 & B2). rewrite E2. cbn [rbind negb]. rewrite orb_true_r.
          pose proof (fixed_ok _ _ Hs (iv_ev _ _ _ _ _ I2)) as F2.
          rewrite <- rbind_assoc, two_values; [|apply (fx_whphi _ _ F2)|apply (fx_whc _ _ F2)|rewrite (same_nnz _ _ (fx_hphi _ _ F2)), (fx_nhc _ _ F2); exact Lm].
          cbn [rbind fst]. eexists; eexists; split; [reflexivity|]. unfold next_point. cbn [point_of].
          assert (Es : step_lambda lam (EvalH n (Some xs) new_x fac m (Some la') nl k ir jc (Some mem)) =
                       step_lambda lam (EvalH 0 (Some xs) 0 n0 0 (Some la') 1 0 None None (Some []))) by (cbn [step_lambda]; rewrite En; reflexivity).
          split; [rewrite Es; exact I2|]. split; [reflexivity|]. cbn beta iota zeta. rewrite En, orb_true_r. rewrite Es.
          exists (m_bufs (nlp_base q2)). eexists. split; [rewrite B2; exact V|]. split; [apply (iv_lam _ _ _ _ _ I2)|reflexivity].
        * cbn [rbind negb]. rewrite orb_false_r.
          assert (Es : step_lambda lam (EvalH n (Some xs) new_x fac m (Some la') nl k ir jc (Some mem)) = lam) by (cbn [step_lambda]; rewrite En; reflexivity).
          destruct (new_x =? 1)%Z eqn:Ex.
          -- rewrite <- rbind_assoc, two_values; [|apply (fx_whphi _ _ Fq)|apply (fx_whc _ _ Fq)|rewrite (same_nnz _ _ (fx_hphi _ _ Fq)), (fx_nhc _ _ Fq); exact Lm].
             cbn [rbind fst]. eexists; eexists; split; [reflexivity|]. unfold next_point. cbn [point_of].
             split; [rewrite Es; exact I'|]. split; [reflexivity|]. cbn beta iota zeta. rewrite Ex. cbn [orb]. rewrite Es.
             exists (m_bufs (nlp_base q)). eexists. split; [exact V|]. split; [apply (iv_lam _ _ _ _ _ I')|reflexivity].
          -- eexists; eexists; split; [reflexivity|]. unfold next_point. cbn [point_of]. split; [rewrite Es; exact I'|].
             split; [reflexivity|]. cbn beta iota zeta. rewrite Ex, En. reflexivity.
  Qed.

  (** ** Sequences *)
  Lemma start_inv q0 p : evolves q0 (nlp_base p) -> inv q0 (coo_data (m_hcomb (nlp_base p))) None None p.
  Proof. intros E. constructor; [exact E|discriminate|reflexivity]. Qed.
  Lemma run_calls_ok q0 d0 : nlp_sane q0 -> forall cs last lam p, inv q0 d0 last lam p -> Forall (well_called q0) cs -> honours last cs ->
    exists p' rs, run_calls p cs = Ok (p', rs) /\ inv q0 d0 (fold_left next_point cs last) (fold_left step_lambda cs lam) p' /\
      length rs = length cs /\
      forall i c r, nth_error cs i = Some c -> nth_error rs i = Some r -> full_right q0 d0 (fold_left step_lambda (firstn i cs) lam) c r.
  Proof.
    intros Hs. induction cs as [|c cs IH]; intros last lam p Hi Hw Hh; cbn [run_calls].
    - exists p, []. split; [reflexivity|]. split; [exact Hi|]. split; [reflexivity|]. intros [|i] c r Hc; discriminate.
    - inversion Hw as [|? ? Hwc Hw']; subst. cbn [honours] in Hh.
      assert (Hc : match point_of c with Some x => last = Some x \/ flag_of c = true | None => True end) by (destruct (point_of c); tauto).
      destruct (callback_ok q0 d0 last lam p c Hs Hi Hwc Hc) as (p1 & r & E & I1 & R). rewrite E. cbn [rbind fst snd].
      destruct (IH (next_point last c) (step_lambda lam c) p1 I1 Hw') as (p' & rs & E' & I' & L & R').
      { unfold next_point. destruct (point_of c); tauto. }
      rewrite E'. cbn [rbind fst snd]. exists p', (r :: rs). split; [reflexivity|]. split; [exact I'|]. split; [cbn; lia|].
      intros [|i] c' r' Hc' Hr'; cbn in Hc', Hr'; [injection Hc' as <-; injection Hr' as <-; exact R|]. apply (R' i); assumption.
  Qed.
End Cb.
