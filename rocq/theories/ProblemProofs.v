(** Proofs about the problem constructors, evaluation and Hessian combination. *)
From Verif Require Import Base Num Matrix MatSpec NodeInd MatrixProofs SumDupProofs Problem.

Section Prob.
  Context {T : Type} `{Num T}.

  (** Same dimensions, same positions, same number of values. *)
  Definition same_structure (m m' : coo T) : Prop :=
    coo_rows m' = coo_rows m /\ coo_cols m' = coo_cols m /\
    coo_ri m' = coo_ri m /\ coo_ci m' = coo_ci m /\ length (coo_data m') = length (coo_data m).
  Definition same_shape (b b' : bufs T) : Prop :=
    length (b_gphi b') = length (b_gphi b) /\ length (b_f b') = length (b_f b) /\
    same_structure (b_hphi b) (b_hphi b') /\ same_structure (b_j b) (b_j b') /\
    Forall2 same_structure (b_h b) (b_h b').
  (** An evaluation function that only writes values (never resizes a buffer
      or moves an entry). *)
  Definition keeps_shape (ev : eval_fn T) : Prop :=
    forall b x b', ev b x = Ok b' -> same_shape b b'.

  (** What a problem can become by calls of [evaluate] and [combine_h]. *)
  Inductive evolves (p0 : minlp T) : minlp T -> Prop :=
  | ev_start : evolves p0 p0
  | ev_eval p x p' : evolves p0 p -> minlp_evaluate p x = Ok p' -> evolves p0 p'
  | ev_comb p nu p' : evolves p0 p -> combine_h p nu = Ok p' -> evolves p0 p'.

  Lemma same_structure_refl m : same_structure m m.
  Proof. repeat split. Qed.
  Lemma same_structure_trans a b c : same_structure a b -> same_structure b c -> same_structure a c.
  Proof. intros (? & ? & ? & ? & ?) (? & ? & ? & ? & ?); repeat split; congruence. Qed.
  Lemma same_shape_refl b : same_shape b b.
  Proof.
    repeat split. induction (b_h b); constructor; auto. apply same_structure_refl.
  Qed.
  Lemma same_shape_trans a b c : same_shape a b -> same_shape b c -> same_shape a c.
  Proof.
    intros (A1 & A2 & A3 & A4 & A5) (B1 & B2 & B3 & B4 & B5).
    split; [congruence|]. split; [congruence|].
    split; [eapply same_structure_trans; eauto|]. split; [eapply same_structure_trans; eauto|].
    revert B5. generalize (b_h c) as z. induction A5 as [|x y l l' Hxy Hl IH]; intros z Hz; inversion Hz; subst; constructor.
    - eapply same_structure_trans; eauto.
    - apply IH; auto.
  Qed.

  (** *** The pattern of the combined Hessian *)
  Lemma set_row_app r c dr x l ci (d : list T) y :
    set_row_ind (mk_coo r c (dr ++ x :: l) ci d) (length dr) y = Ok (mk_coo r c (dr ++ y :: l) ci d).
  Proof. unfold set_row_ind. cbn [coo_ri]. rewrite vset_app. reflexivity. Qed.
  Lemma set_col_app r c dr x l ri (d : list T) y :
    set_col_ind (mk_coo r c ri (dr ++ x :: l) d) (length dr) y = Ok (mk_coo r c ri (dr ++ y :: l) d).
  Proof. unfold set_col_ind. cbn [coo_ci]. rewrite vset_app. reflexivity. Qed.
  Lemma pattern_items nx (es : list (nat * nat * T)) : forall dr dc n data,
    length dr = length dc ->
    foldR (fun (st : coo T * nat) it =>
             let '(m, k) := st in
             let '(row, col, _) := it in
             rbind (set_row_ind m k row) (fun m1 =>
             rbind (set_col_ind m1 k col) (fun m2 =>
             Ok (m2, S k))))
          es (mk_coo nx nx (dr ++ repeat 0 (length es + n)) (dc ++ repeat 0 (length es + n)) data, length dr) =
    Ok (mk_coo nx nx ((dr ++ map (fun e => fst (fst e)) es) ++ repeat 0 n)
               ((dc ++ map (fun e => snd (fst e)) es) ++ repeat 0 n) data,
        length (dr ++ map (fun e => fst (fst e)) es)).
  Proof.
    induction es as [|[[i j] v] es IH]; intros dr dc n data Hl; cbn [foldR map length Nat.add].
    - rewrite !app_nil_r. reflexivity.
    - cbn [repeat]. rewrite set_row_app. cbn [rbind].
      rewrite Hl. rewrite set_col_app. cbn [rbind].
      pose proof (IH (dr ++ [i]) (dc ++ [j]) n data) as G.
      rewrite <- !app_assoc in G. cbn [app] in G. rewrite !app_length in G. cbn [length] in G.
      rewrite <- Hl. replace (S (length dr)) with (length dr + 1) by lia. rewrite G by lia.
      cbn [fst snd]. rewrite <- !app_assoc. cbn [app]. f_equal. f_equal. rewrite !app_length. cbn. lia.
  Qed.
  Lemma pattern_loop nx (h : list (coo T)) : Forall coo_wf h -> forall dr dc data,
    length dr = length dc ->
    foldR hcomb_pattern h
      (mk_coo nx nx (dr ++ repeat 0 (fold_right (fun hh s => coo_nnz hh + s) 0 h))
              (dc ++ repeat 0 (fold_right (fun hh s => coo_nnz hh + s) 0 h)) data, length dr) =
    Ok (mk_coo nx nx (dr ++ concat (map coo_ri h)) (dc ++ concat (map coo_ci h)) data,
        length (dr ++ concat (map coo_ri h))).
  Proof.
    induction 1 as [|m h Hm Hh IH]; intros dr dc data Hl; cbn [foldR fold_right map concat].
    - cbn [repeat]. rewrite !app_nil_r. reflexivity.
    - unfold hcomb_pattern at 1. rewrite coo_items_ok by auto. cbn [rbind].
      rewrite <- entries_length by auto. rewrite pattern_items by auto.
      assert (E1 : map (fun e => fst (fst e)) (entries m) = coo_ri m) by (apply entries_rows; auto).
      assert (E2 : map (fun e => snd (fst e)) (entries m) = coo_ci m).
      { destruct Hm as [W1 W2]. unfold entries. rewrite <- (map_map fst snd).
        assert (G1 : forall A B (l : list A) (l' : list B), length l <= length l' -> map fst (combine l l') = l).
        { intros A B l. induction l as [|a l IHl]; intros [|b l'] Hle; cbn in *; auto; try lia. f_equal. apply IHl; lia. }
        assert (G2 : forall A B (l : list A) (l' : list B), length l' <= length l -> map snd (combine l l') = l').
        { intros A B l l'; revert l. induction l' as [|b l' IHl]; intros [|a l] Hle; cbn in *; auto; try lia. f_equal. apply IHl; lia. }
        rewrite G1 by (rewrite combine_length; lia). apply G2; lia. }
      rewrite E1, E2. cbn [rbind]. destruct Hm as [W1 W2].
      rewrite IH by (rewrite !app_length; lia). rewrite <- !app_assoc. reflexivity.
  Qed.

  (** What [ProblemMinlp::new] needs and gives. *)
  Definition dims_ok (hphi a : coo T) (b : list T) (j : coo T) (h : list (coo T))
             (l u : list T) (p : list bool) : Prop :=
    let nx := coo_cols a in
    coo_cols hphi = nx /\ coo_rows hphi = nx /\ length b = coo_rows a /\ coo_cols j = nx /\
    length h = coo_rows j /\ (forall hh, In hh h -> coo_rows hh = nx /\ coo_cols hh = nx) /\
    length l = nx /\ length u = nx /\ length p = nx.
  Definition made (hphi a : coo T) (b : list T) (j : coo T) (h : list (coo T))
             (l u : list T) (p : list bool) (x0 : option (list T)) (ev : eval_fn T) : minlp T :=
    mk_minlp x0 (mk_bufs n0 (repeat n0 (coo_cols a)) hphi (repeat n0 (coo_rows j)) j h) a b
             (mk_coo (coo_cols a) (coo_cols a) (concat (map coo_ri h)) (concat (map coo_ci h))
                     (repeat n0 (list_sum (map coo_nnz h))))
             l u p ev.

  Lemma minlp_new_ok hphi a b j h l u p x0 ev :
    Forall coo_wf h -> dims_ok hphi a b j h l u p ->
    minlp_new hphi a b j h l u p x0 ev = Ok (made hphi a b j h l u p x0 ev).
  Proof.
    intros Hh (D1 & D2 & D3 & D4 & D5 & D6 & D7 & D8 & D9). unfold minlp_new.
    rewrite D1, D2, D3, D4, D5, D7, D8, D9, !Nat.eqb_refl. cbn [rassert rbind].
    replace (forallb _ h) with true.
    - cbn [rassert rbind]. pose proof (pattern_loop (coo_cols a) h Hh [] []) as G. cbn [app length] in G.
      unfold coo_from_nnz. rewrite G by auto. cbn [rbind fst]. unfold made.
      replace (list_sum (map coo_nnz h)) with (fold_right (fun hh s => coo_nnz hh + s) 0 h); [reflexivity|].
      clear. induction h as [|m h IH]; cbn; auto.
    - symmetry; apply forallb_forall. intros hh Hin. destruct (D6 hh Hin) as [-> ->].
      rewrite Nat.eqb_refl. reflexivity.
  Qed.
  Lemma minlp_new_inv hphi a b j h l u p x0 ev q :
    Forall coo_wf h -> minlp_new hphi a b j h l u p x0 ev = Ok q ->
    dims_ok hphi a b j h l u p /\ q = made hphi a b j h l u p x0 ev.
  Proof.
    intros Hh E. assert (D : dims_ok hphi a b j h l u p).
    { unfold minlp_new, rassert in E.
      repeat match type of E with
             | rbind (if ?c then _ else _) _ = _ => destruct c eqn:?; [cbn [rbind] in E|discriminate]
             end.
      repeat match goal with E : (_ =? _) = true |- _ => apply Nat.eqb_eq in E end.
      repeat split; auto; rewrite forallb_forall in *;
        match goal with Hf : forall x, In x h -> _ = true, Hin : In ?hh h |- _ =>
          specialize (Hf hh Hin); apply andb_true_iff in Hf as [F1 F2]; apply Nat.eqb_eq in F1, F2; auto end. }
    split; auto. rewrite minlp_new_ok in E by auto. congruence.
  Qed.
  Lemma minlp_new_panic hphi a b j h l u p x0 ev :
    Forall coo_wf h -> ~ dims_ok hphi a b j h l u p ->
    minlp_new hphi a b j h l u p x0 ev = Panic PAssert.
  Proof.
    intros Hh D. unfold minlp_new, rassert.
    destruct (coo_cols hphi =? coo_cols a) eqn:E1; [|reflexivity].
    destruct (coo_rows hphi =? coo_cols a) eqn:E2; [|reflexivity].
    destruct (length b =? coo_rows a) eqn:E3; [|reflexivity].
    destruct (coo_cols j =? coo_cols a) eqn:E4; [|reflexivity].
    destruct (length h =? coo_rows j) eqn:E5; [|reflexivity].
    destruct (forallb _ h) eqn:E6; [|reflexivity].
    destruct (length l =? coo_cols a) eqn:E7; [|reflexivity].
    destruct (length u =? coo_cols a) eqn:E8; [|reflexivity].
    destruct (length p =? coo_cols a) eqn:E9; [|reflexivity].
    exfalso. apply D. repeat match goal with E : (_ =? _) = true |- _ => apply Nat.eqb_eq in E end.
    repeat split; auto; rewrite forallb_forall in *;
      match goal with Hf : forall x, In x h -> _ = true, Hin : In ?hh h |- _ =>
        specialize (Hf hh Hin); apply andb_true_iff in Hf as [F1 F2]; apply Nat.eqb_eq in F1, F2; auto end.
  Qed.

  (** *** [combine_h] *)
  Lemma comb_inner nu (vals : list T) : forall done rest,
    length vals <= length rest ->
    foldR (fun (st : list T * nat) v =>
             let '(data, k) := st in
             rbind (vset data k (nmul nu v)) (fun data' => Ok (data', S k)))
          vals (done ++ rest, length done) =
    Ok ((done ++ map (nmul nu) vals) ++ skipn (length vals) rest, length (done ++ map (nmul nu) vals)).
  Proof.
    induction vals as [|v vals IH]; intros done rest Hl; cbn [foldR map length skipn].
    - rewrite !app_nil_r. reflexivity.
    - destruct rest as [|x rest]; [cbn in Hl; lia|]. rewrite vset_app. cbn [rbind].
      pose proof (IH (done ++ [nmul nu v]) rest ltac:(cbn in Hl; lia)) as G.
      rewrite <- !app_assoc in G. cbn [app] in G. rewrite !app_length in G. cbn [length] in G.
      replace (S (length done)) with (length done + 1) by lia. rewrite G. cbn [skipn].
      rewrite <- !app_assoc. cbn [app]. f_equal. f_equal. rewrite !app_length. cbn. lia.
  Qed.
  Lemma comb_outer (hn : list (coo T * T)) : forall done rest,
    length rest = list_sum (map (fun x => length (coo_data (fst x))) hn) ->
    foldR (fun (st : list T * nat) (hn : coo T * T) =>
             foldR (fun (st : list T * nat) v =>
                      let '(data, k) := st in
                      rbind (vset data k (nmul (snd hn) v)) (fun data' => Ok (data', S k)))
                   (coo_data (fst hn)) st) hn (done ++ rest, length done) =
    Ok (done ++ concat (map (fun x => map (nmul (snd x)) (coo_data (fst x))) hn),
        length (done ++ concat (map (fun x => map (nmul (snd x)) (coo_data (fst x))) hn))).
  Proof.
    induction hn as [|[m nu] hn IH]; intros done rest Hl; cbn [foldR map concat fst snd].
    - cbn in Hl. destruct rest; [|discriminate]. rewrite !app_nil_r. reflexivity.
    - cbn in Hl. rewrite comb_inner by (unfold list_sum in *; lia). cbn [rbind].
      rewrite IH.
      + rewrite <- !app_assoc. reflexivity.
      + rewrite skipn_length. unfold list_sum in *. lia.
  Qed.

  (** The state of a problem after any history. *)
  Lemma evolves_inv hphi a b j h l u p x0 ev q :
    keeps_shape ev -> Forall coo_wf h -> dims_ok hphi a b j h l u p ->
    evolves (made hphi a b j h l u p x0 ev) q ->
    exists bf d, same_shape (m_bufs (made hphi a b j h l u p x0 ev)) bf /\
      length d = list_sum (map coo_nnz h) /\
      q = mk_minlp x0 bf a b (mk_coo (coo_cols a) (coo_cols a) (concat (map coo_ri h)) (concat (map coo_ci h)) d) l u p ev.
  Proof.
    intros Hk Hh D Hq. induction Hq as [|p1 x p2 Hp IH E|p1 nu p2 Hp IH E].
    - eexists; eexists; split; [apply same_shape_refl|]. split; [|reflexivity]. apply repeat_length.
    - destruct IH as (bf & d & Hs & Hd & ->). unfold minlp_evaluate in E. cbn in E.
      destruct (ev bf x) as [bf'|] eqn:Ee; [|discriminate]. cbn in E. inversion E; subst.
      exists bf', d. split; [|auto]. eapply same_shape_trans; eauto.
    - destruct IH as (bf & d & Hs & Hd & ->). unfold combine_h in E. cbn in E. unfold rassert in E.
      destruct (_ =? _) eqn:En; [|discriminate]. cbn in E. apply Nat.eqb_eq in En.
      assert (Hlen : length d = list_sum (map (fun x => length (coo_data (fst x))) (combine (b_h bf) nu))).
      { rewrite Hd. destruct Hs as (S1 & S2 & S3 & S4 & S5). cbn in S2, S5.
        unfold m_nf in En. cbn in En. rewrite S2, repeat_length in En.
        assert (Hlh : length nu = length h).
        { destruct D as (_ & _ & _ & _ & D5 & _). lia. }
        clear -S5 Hh Hlh. unfold list_sum. revert nu Hlh. induction S5 as [|m m' h h' Hm Hl IH]; intros [|x nu] Hlh; try discriminate; auto.
        inversion Hh as [|? ? W Hh']; subst. cbn. rewrite (IH Hh' nu) by (cbn in Hlh; lia). destruct Hm as (_ & _ & _ & _ & ->).
        destruct W as [W1 W2]. unfold coo_nnz at 1. rewrite <- W2. reflexivity. }
      pose proof (comb_outer (combine (b_h bf) nu) [] d Hlen) as G. cbn [app length] in G.
      rewrite G in E. cbn in E. inversion E; subst. clear E.
      exists bf; eexists; split; [exact Hs|]. split; [|reflexivity].
      rewrite <- Hd, Hlen. clear. induction (combine (b_h bf) nu) as [|x l IH]; cbn; auto.
      rewrite app_length, map_length, IH. reflexivity.
  Qed.

  Theorem combine_h_ok hphi a b j h l u p x0 ev q nu :
    keeps_shape ev -> Forall coo_wf h -> dims_ok hphi a b j h l u p ->
    evolves (made hphi a b j h l u p x0 ev) q ->
    (length nu = coo_rows j ->
     exists q', combine_h q nu = Ok q' /\ m_bufs q' = m_bufs q /\ m_a q' = m_a q /\ m_b q' = m_b q /\
       m_l q' = m_l q /\ m_u q' = m_u q /\ m_p q' = m_p q /\ m_x0 q' = m_x0 q /\ m_eval q' = m_eval q /\
       coo_rows (m_hcomb q') = coo_cols a /\ coo_cols (m_hcomb q') = coo_cols a /\
       entries (m_hcomb q') =
       concat (map (fun x => map (fun e => (fst e, nmul (snd x) (snd e))) (entries (fst x)))
                   (combine (b_h (m_bufs q)) nu))) /\
    (length nu <> coo_rows j -> combine_h q nu = Panic PAssert).
  Proof.
    intros Hk Hh D Hq. destruct (evolves_inv _ _ _ _ _ _ _ _ _ _ _ Hk Hh D Hq) as (bf & d & Hs & Hd & ->).
    destruct Hs as (S1 & S2 & S3 & S4 & S5). cbn in S2, S5. rewrite repeat_length in S2.
    assert (Dh : length h = coo_rows j) by (destruct D as (_ & _ & _ & _ & D5 & _); lia).
    split.
    - intros Hnu. unfold combine_h. cbn [m_bufs m_nf m_hcomb coo_data]. unfold m_nf; cbn [m_bufs].
      rewrite S2, Hnu, Nat.eqb_refl. cbn [rassert rbind].
      assert (Hlen : length d = list_sum (map (fun x => length (coo_data (fst x))) (combine (b_h bf) nu))).
      { rewrite Hd. assert (Hlh : length nu = length h) by lia.
        clear -S5 Hh Hlh. unfold list_sum. revert nu Hlh. induction S5 as [|m m' h h' Hm Hl IH]; intros [|x nu] Hlh; try discriminate; auto.
        inversion Hh as [|? ? W Hh']; subst. cbn. rewrite (IH Hh' nu) by (cbn in Hlh; lia). destruct Hm as (_ & _ & _ & _ & ->).
        destruct W as [W1 W2]. unfold coo_nnz at 1. rewrite <- W2. reflexivity. }
      pose proof (comb_outer (combine (b_h bf) nu) [] d Hlen) as G. cbn [app length] in G. rewrite G. cbn [rbind].
      eexists; split; [reflexivity|]. cbn. repeat split; auto.
      unfold entries at 1. cbn [coo_ri coo_ci coo_data with_data fst].
      assert (Hlh : length nu = length h) by lia.
      clear -S5 Hh Hlh. revert nu Hlh. induction S5 as [|m m' h h' Hm Hl IH]; intros [|x nu] Hlh; try discriminate; auto.
      inversion Hh as [|? ? W Hh']; subst. cbn [map concat combine fst snd].
      destruct Hm as (M1 & M2 & M3 & M4 & M5). destruct W as [W1 W2].
      assert (Happ : forall A B (l1 l2 : list A) (r1 r2 : list B), length l1 = length r1 ->
                combine (l1 ++ l2) (r1 ++ r2) = combine l1 r1 ++ combine l2 r2).
      { intros A B l1. induction l1 as [|a0 l1 IHl]; intros l2 [|b0 r1] r2 HL; try discriminate; cbn; auto.
        f_equal. apply IHl. cbn in HL; lia. }
      rewrite Happ by auto. rewrite Happ by (rewrite map_length, combine_length; lia).
      rewrite IH by (auto; cbn in Hlh; lia). f_equal. unfold entries. rewrite M3, M4.
      generalize (combine (coo_ri m) (coo_ci m)) as l1, (coo_data m') as l2. clear.
      induction l1 as [|a l1 IH]; intros [|b l2]; cbn; auto. f_equal. apply IH.
    - intros Hnu. unfold combine_h. unfold m_nf; cbn [m_bufs]. rewrite S2.
      rewrite (proj2 (Nat.eqb_neq _ _)) by auto. reflexivity.
  Qed.

  (** *** Linear problems *)
  Lemma linear_eval_keeps (c : list T) : keeps_shape (linear_eval c).
  Proof.
    intros b x b' E. unfold linear_eval, dot, rassert, copy_from_slice in E.
    destruct (length c =? length x); [|discriminate]. cbn in E.
    destruct (length (b_gphi b) =? length c) eqn:E2; [|discriminate]. cbn in E. inversion E; subst.
    apply Nat.eqb_eq in E2. unfold same_shape; cbn. split; [auto|]. split; [auto|].
    split; [apply same_structure_refl|]. split; [apply same_structure_refl|].
    induction (b_h b); constructor; auto. apply same_structure_refl.
  Qed.

  Definition dot_val (c x : list T) : T :=
    fold_left (fun acc p => nadd acc (nmul (fst p) (snd p))) (combine c x) n0.
End Prob.
