(** C43: LP files.  [read_lp] (LpSpec) is a reader of the LP format written
    without reference to the writer. *)
From Verif Require Import Base Num Matrix Problem Text LpFile LpSpec TextProofs FmtProofs FloatProofs Properties_Num
  NodeInd MatSpec MatrixProofs SumDupProofs CsrProofs Properties_Matrix LpProofs.
From Coq Require Import NArith Floats.SpecFloat Reals Lra Permutation.
Local Open Scope string_scope.
Local Open Scope list_scope.

Section Lp.
  Context (fsin fcos : F -> F).
  Local Instance num_lp : Num F := NumF fsin fcos.

  (** The coefficient of variable [j] in row [i]: the values stored at [(i, j)], added. *)
  Definition coefficient (a : coo F) (i j : nat) : F := sum1 (at_col j (row_of i (entries a))).
  (** [v] is what a reader gets from the ten-digit text of [x] (see C44). *)
  Definition prints_as (x v : F) : Prop := parse_f64 (fmt_e10 x) = Some v.
  Definition is_nan (x : F) : Prop := x = S754_nan.

  (** Linear problems that have a meaning as an LP file. *)
  Definition lp_sane (c : list F) (a : coo F) (b l u : list F) : Prop :=
    coo_built a /\
    (forall i j v, In (i, j, v) (entries a) -> i < coo_rows a /\ j < coo_cols a) /\
    length c = coo_cols a /\ Forall finite c /\ (forall i j, finite (coefficient a i j)) /\
    Forall (fun x => ~ is_nan x) b /\ Forall (fun x => ~ is_nan x) l /\ Forall (fun x => ~ is_nan x) u.

  Lemma rendered_iff x v : prints_as x v <-> rendered x = v.
  Proof.
    unfold prints_as, rendered. destruct (read_fmt x) as [y E]. rewrite E. split; intros Q; [injection Q as Q; exact Q|rewrite Q; reflexivity].
  Qed.
  Lemma milp_new_inv c a b l u ints x0 p : @milp_new F num_lp c a b l u ints x0 = Ok p ->
    milp_c p = c /\ m_a (milp_base p) = a /\ m_b (milp_base p) = b /\ m_l (milp_base p) = l /\ m_u (milp_base p) = u /\
    m_p (milp_base p) = ints /\ length b = coo_rows a /\ length l = coo_cols a /\ length u = coo_cols a /\ length ints = coo_cols a.
  Proof.
    unfold milp_new, minlp_new, rassert. intros E.
    repeat match type of E with
    | context [if ?c then _ else _] => destruct c eqn:?; cbn [rbind] in E; [|discriminate]
    end.
    destruct (foldR _ _ _) as [st|]; cbn [rbind] in E; [|discriminate]. injection E as <-. cbn [milp_c milp_base m_a m_b m_l m_u m_p].
    repeat match goal with H : (_ =? _)%nat = true |- _ => apply Nat.eqb_eq in H end. auto 12.
  Qed.

  Definition rows_of (a : coo F) (b : list F) : list (nat * list (nat * F) * F) :=
    map (fun i => (i, merged_row (row_of i (entries a)), nth i b n0)) (seq 0 (coo_rows a)).
  Definition bounds_of (n : nat) (l u : list F) : list (nat * (F * F)) := map (fun j => (j, (nth j l n0, nth j u n0))) (seq 0 n).

  Lemma nth_nth_error {A} (l : list A) i d : i < length l -> nth_error l i = Some (nth i l d).
  Proof. intros. apply nth_error_nth'. assumption. Qed.
  (** What is written, for a problem whose indices are in range. *)
  Lemma write_eq c a b l u ints x0 p : milp_new c a b l u ints x0 = Ok p -> coo_built a ->
    (forall i j v, In (i, j, v) (entries a) -> i < coo_rows a /\ j < coo_cols a) -> length c = coo_cols a ->
    write_to_lp_file p = Ok (file_text fsin fcos c (rows_of a b) (bounds_of (coo_cols a) l u) ints).
  Proof.
    intros E Hb Hin Hc. destruct (milp_new_inv _ _ _ _ _ _ _ _ E) as (<- & Ea & Eb & El & Eu & Ep & Lb & Ll & Lu & _).
    unfold write_to_lp_file. rewrite Ea, Eb, El, Eu, Ep.
    assert (W := coo_built_wf _ Hb).
    rewrite (proj1 (C37_to_csr a Hb)).
    2:{ intros r Hr. rewrite <- (entries_rows a W) in Hr. apply in_map_iff in Hr. destruct Hr as ([[i j] v] & <- & Hi). apply (Hin _ _ _ Hi). }
    cbn [rbind]. rewrite sum_duplicates_eq.
    replace (forallb _ _) with true.
    2:{ symmetry. apply forallb_forall. intros row Hr. apply in_map_iff in Hr. destruct Hr as (r & <- & _).
        apply forallb_forall. intros [j v] Hj. unfold row_of in Hj. apply in_map_iff in Hj. destruct Hj as ([[i' j'] v'] & Ee & Hf).
        cbn [fst snd] in Ee. injection Ee as -> ->. apply filter_In in Hf. apply Nat.ltb_lt. apply (Hin _ _ _ (proj1 Hf)). }
    cbn [rbind]. rewrite map_map.
    cbn [csr_rows csr_of]. rewrite map_length, seq_length.
    rewrite (mapR_ok _ (fun i => row_piece fsin fcos i (merged_row (row_of i (entries a))) (nth i b n0))).
    2:{ intros i Hi. apply in_seq in Hi. apply row_text_eq.
        - rewrite nth_error_map, nth_error_seq by lia. reflexivity.
        - apply nth_nth_error. lia. }
    cbn [rbind]. rewrite (mapR_ok _ (fun i => bound_piece i (nth i l n0, nth i u n0))).
    2:{ intros i Hi. apply in_seq in Hi. unfold milp_nx in Hi. unfold bound_text, vget.
        rewrite (nth_nth_error l i n0), (nth_nth_error u i n0) by lia. reflexivity. }
    cbn [rbind]. unfold file_text, rows_text, rows_of, bounds_text, bounds_of. rewrite !map_map. cbn [fst snd].
    unfold milp_nx. rewrite Hc. reflexivity.
  Qed.

  Lemma merged_coef a i j v : In (j, v) (merged_row (row_of i (entries a))) <->
    In j (map fst (row_of i (entries a))) /\ v = coefficient a i j.
  Proof.
    unfold merged_row. rewrite in_map_iff. split.
    - intros (c & E & Hc). injection E as -> <-. split; [apply (proj1 (in_firsts _ _) Hc)|reflexivity].
    - intros [Hj ->]. exists j. split; [reflexivity|]. apply in_firsts. exact Hj.
  Qed.
  Lemma absent_coef a i j : ~ In j (map fst (row_of i (entries a))) -> coefficient a i j = n0.
  Proof.
    intros Hn. unfold coefficient. replace (at_col j (row_of i (entries a))) with (@nil F); [reflexivity|]. unfold at_col.
    induction (row_of i (entries a)) as [|[c v] r IH]; [reflexivity|]. cbn [map fst filter] in *. destruct (Nat.eqb_spec c j) as [->|].
    - exfalso. apply Hn. left. reflexivity.
    - apply IH. intros H. apply Hn. right. exact H.
  Qed.
  Lemma in_coefs l v nm : In (v, nm) (flat_map coef l) <-> exists j d, In (j, d) l /\ not_zero d = true /\ v = rendered d /\ nm = xname j.
  Proof.
    rewrite in_flat_map. split.
    - intros ([j d] & Hin & H). unfold coef in H. cbn [fst snd] in H. destruct (not_zero d) eqn:En; [|destruct H].
      destruct H as [H|[]]. injection H as <- <-. exists j, d. auto.
    - intros (j & d & Hin & En & -> & ->). exists (j, d). split; [exact Hin|]. unfold coef. cbn [fst snd]. rewrite En. left. reflexivity.
  Qed.
  Lemma NoDup_coefs (l : list (nat * F)) : NoDup (map fst l) -> NoDup (map snd (flat_map coef l)).
  Proof.
    induction l as [|[j d] l IH]; intros Hn; [constructor|]. cbn [map fst flat_map] in *. apply NoDup_cons_iff in Hn. destruct Hn as [Hj Hn].
    unfold coef at 1. cbn [fst snd]. destruct (not_zero d); [|apply IH; exact Hn]. cbn [app map snd]. constructor; [|apply IH; exact Hn].
    intros H. apply in_map_iff in H. destruct H as ([v nm] & En & H). cbn [snd] in En. subst nm. apply in_coefs in H.
    destruct H as (j' & d' & Hin & _ & _ & Ex). apply xname_inj in Ex. subst j'. apply Hj. change j with (fst (j, d')). apply in_map. exact Hin.
  Qed.
  Lemma combine_seq {A} (c : list A) : forall s j v, In (j, v) (combine (seq s (length c)) c) <-> s <= j /\ nth_error c (j - s) = Some v.
  Proof.
    induction c as [|x c IH]; intros s j v; cbn [length seq combine In].
    - split; [tauto|]. intros [_ H]. destruct (j - s); discriminate.
    - rewrite IH. split.
      + intros [H|[H1 H2]]; [injection H as <- <-; rewrite Nat.sub_diag; auto|]. split; [lia|]. replace (j - s) with (S (j - S s)) by lia. exact H2.
      + intros [H1 H2]. destruct (Nat.eq_dec j s) as [->|Hn]; [rewrite Nat.sub_diag in H2; injection H2 as ->; auto|]. right. split; [lia|].
        replace (j - s) with (S (j - S s)) in H2 by lia. exact H2.
  Qed.
  Lemma combine_seq_fst {A} (c : list A) s : map fst (combine (seq s (length c)) c) = seq s (length c).
  Proof. revert s. induction c; intros s; [reflexivity|]. cbn. f_equal. apply IHc. Qed.

  (** Writing never panics and, when each row has a coefficient that is not zero, the
      text is a legal LP file that says: minimise the sum of [c_j x_j] subject to
      [a_i . x = b_i] for every row, [l_j <= x_j <= u_j], and [x_j] integer where asked. *)
  Theorem C43_file c a b l u ints x0 p : milp_new c a b l u ints x0 = Ok p -> lp_sane c a b l u ->
    (forall i, i < coo_rows a -> exists j, not_zero (coefficient a i j) = true) ->
    exists text doc, write_to_lp_file p = Ok text /\ read_lp (words text) = Some doc /\
      (* objective *)
      d_label doc = "obj" /\
      (forall v nm, In (v, nm) (d_obj doc) <->
         exists j cj, nth_error c j = Some cj /\ not_zero cj = true /\ prints_as cj v /\ nm = xname j) /\
      NoDup (map snd (d_obj doc)) /\
      (* rows *)
      map r_label (d_rows doc) = map cname (seq 0 (coo_rows a)) /\
      (forall i row, nth_error (d_rows doc) i = Some row ->
         (forall v nm, In (v, nm) (r_terms row) <->
            exists j, not_zero (coefficient a i j) = true /\ prints_as (coefficient a i j) v /\ nm = xname j) /\
         NoDup (map snd (r_terms row)) /\
         exists bi, nth_error b i = Some bi /\ prints_as bi (r_rhs row)) /\
      (* bounds *)
      map (fun e => snd (fst e)) (d_bounds doc) = map xname (seq 0 (coo_cols a)) /\
      (forall j lo nm hi, nth_error (d_bounds doc) j = Some (lo, nm, hi) ->
         exists lj uj, nth_error l j = Some lj /\ nth_error u j = Some uj /\ prints_as lj lo /\ prints_as uj hi) /\
      (* integers *)
      (forall nm, In nm (d_general doc) <-> exists j, nth_error ints j = Some true /\ nm = xname j) /\
      NoDup (d_general doc).
  Proof.
    intros E (Hb & Hin & Hc & Fc & Fa & Nb & Nl & Nu) Hnz.
    destruct (milp_new_inv _ _ _ _ _ _ _ _ E) as (_ & _ & _ & _ & _ & _ & Lb & Ll & Lu & Li).
    exists (file_text fsin fcos c (rows_of a b) (bounds_of (coo_cols a) l u) ints), (doc_of c (rows_of a b) (bounds_of (coo_cols a) l u) ints).
    split; [apply (write_eq _ _ _ _ _ _ _ _ E Hb Hin Hc)|]. split.
    { apply read_file; [exact Fc| |].
      - apply Forall_forall. intros e He. apply in_map_iff in He. destruct He as (i & <- & Hi). apply in_seq in Hi. cbn [fst snd]. split; [|split].
        + apply Forall_forall. intros [j v] Hj. apply merged_coef in Hj. destruct Hj as [_ ->]. apply Fa.
        + destruct (Hnz i) as (j & Hj); [lia|]. apply existsb_exists. exists (j, coefficient a i j). split; [|exact Hj].
          apply merged_coef. split; [|reflexivity]. destruct (in_dec Nat.eq_dec j (map fst (row_of i (entries a)))) as [H|H]; [exact H|].
          rewrite (absent_coef a i j H) in Hj. discriminate.
        + rewrite Forall_forall in Nb. apply Nb. apply nth_In. lia.
      - apply Forall_forall. intros e He. apply in_map_iff in He. destruct He as (j & <- & Hj). apply in_seq in Hj. cbn [fst snd].
        rewrite Forall_forall in Nl, Nu. split; [apply Nl|apply Nu]; apply nth_In; lia. }
    unfold doc_of. cbn [d_label d_obj d_rows d_bounds d_general]. split; [reflexivity|]. split; [|split; [|split; [|split; [|split; [|split; [|split]]]]]].
    - intros v nm. rewrite in_coefs. split.
      + intros (j & d & H1 & H2 & H3 & H4). apply combine_seq in H1. rewrite Nat.sub_0_r in H1. exists j, d. rewrite rendered_iff.
        destruct H1 as [_ H1]. auto.
      + intros (j & d & H1 & H2 & H3 & H4). rewrite rendered_iff in H3. exists j, d. split; [|auto]. apply combine_seq. rewrite Nat.sub_0_r. split; [lia|exact H1].
    - apply NoDup_coefs. rewrite combine_seq_fst. apply seq_NoDup.
    - unfold rows_of. rewrite !map_map. reflexivity.
    - intros i row H. unfold rows_of in H. rewrite map_map, nth_error_map in H. destruct (nth_error (seq 0 (coo_rows a)) i) as [i'|] eqn:Ei; [|discriminate].
      assert (Hi : i < coo_rows a) by (rewrite <- (seq_length (coo_rows a) 0); apply nth_error_Some; congruence).
      rewrite nth_error_seq in Ei by exact Hi. injection Ei as <-. cbn [option_map fst snd Nat.add] in H. injection H as <-. cbn [row_doc r_terms r_rhs]. split; [|split].
      + intros v nm. rewrite in_coefs. split.
        * intros (j & d & H1 & H2 & H3 & H4). apply merged_coef in H1. destruct H1 as [H1 ->]. exists j. rewrite rendered_iff. auto.
        * intros (j & H2 & H3 & H4). rewrite rendered_iff in H3. exists j, (coefficient a i j). split; [|auto]. apply merged_coef. split; [|reflexivity].
          destruct (in_dec Nat.eq_dec j (map fst (row_of i (entries a)))) as [H|H]; [exact H|]. rewrite (absent_coef a i j H) in H2. discriminate.
      + apply NoDup_coefs. rewrite merged_fst. apply firsts_NoDup.
      + exists (nth i b n0). split; [apply nth_nth_error; lia|]. apply rendered_iff. reflexivity.
    - unfold bounds_of. rewrite !map_map. reflexivity.
    - intros j lo nm hi H. unfold bounds_of in H. rewrite map_map, nth_error_map in H. destruct (nth_error (seq 0 (coo_cols a)) j) as [j'|] eqn:Ej; [|discriminate].
      assert (Hj : j < coo_cols a) by (rewrite <- (seq_length (coo_cols a) 0); apply nth_error_Some; congruence).
      rewrite nth_error_seq in Ej by exact Hj. injection Ej as <-. cbn [option_map fst snd Nat.add] in H. injection H as <- <- <-.
      exists (nth j l n0), (nth j u n0). rewrite !rendered_iff. repeat split; apply nth_nth_error; lia.
    - intros nm. rewrite map_map, in_map_iff. split.
      + intros ([j q] & <- & H). apply filter_In in H. destruct H as [H Hq]. cbn [snd fst] in *. subst q. apply combine_seq in H. rewrite Nat.sub_0_r in H.
        exists j. split; [apply H|reflexivity].
      + intros (j & Hj & ->). exists (j, true). split; [reflexivity|]. apply filter_In. split; [|reflexivity]. apply combine_seq. rewrite Nat.sub_0_r. split; [lia|exact Hj].
    - assert (Hs : NoDup (map fst (filter snd (combine (seq 0 (length ints)) ints)))).
      { assert (Hd : NoDup (map fst (combine (seq 0 (length ints)) ints))) by (rewrite combine_seq_fst; apply seq_NoDup).
        revert Hd. generalize (combine (seq 0 (length ints)) ints). intros q. clear. induction q as [|[j t] q IH]; intros Hd; [constructor|].
        cbn [map fst filter snd] in *. apply NoDup_cons_iff in Hd. destruct Hd as [H1 H2]. destruct t; [|apply IH; exact H2].
        cbn [map fst]. constructor; [|apply IH; exact H2]. intros H. apply H1. apply in_map_iff in H. destruct H as (e & Ee & He).
        apply filter_In in He. apply in_map_iff. exists e. split; [exact Ee|apply He]. }
      revert Hs. generalize (map fst (filter snd (combine (seq 0 (length ints)) ints))). intros q Hs. clear -Hs.
      induction Hs as [|j q Hj Hq IH]; [constructor|]. cbn [map]. constructor; [|exact IH]. intros H. apply in_map_iff in H.
      destruct H as (j' & Ej & Hj'). apply xname_inj in Ej. congruence.
  Qed.

  (** Writing does not panic, whatever the values (even NaN). *)
  Theorem C43_returns c a b l u ints x0 p : milp_new c a b l u ints x0 = Ok p -> coo_built a ->
    (forall i j v, In (i, j, v) (entries a) -> i < coo_rows a /\ j < coo_cols a) -> length c = coo_cols a ->
    exists text, write_to_lp_file p = Ok text.
  Proof. intros E Hb Hin Hc. eexists. apply (write_eq _ _ _ _ _ _ _ _ E Hb Hin Hc). Qed.

  (** ** Meaning *)
  Local Open Scope R_scope.
  Definition total {A} (f : A -> R) (l : list A) : R := fold_right (fun a s => f a + s) 0 l.
  (** A row of the file holds at a point [g] (one number for each name). *)
  Definition row_holds (g : string -> R) (r : lp_row F) : Prop :=
    total (fun t => fval (fst t) * g (snd t)) (r_terms r) = fval (r_rhs r).
  Lemma total_perm {A} (f : A -> R) l l' : Permutation l l' -> total f l = total f l'.
  Proof. unfold total. induction 1; cbn [fold_right] in *; [reflexivity|rewrite IHPermutation; reflexivity|lra|congruence]. Qed.
  Lemma total_app {A} (f : A -> R) l l' : total f (l ++ l') = total f l + total f l'.
  Proof. unfold total. induction l as [|x l IH]; cbn [fold_right app] in *; [lra|]. rewrite IH. lra. Qed.
  Lemma total_zero {A} (f : A -> R) l : (forall a, In a l -> f a = 0) -> total f l = 0.
  Proof. unfold total. induction l as [|a l IH]; intros Hz; cbn [fold_right]; [reflexivity|]. rewrite Hz by (left; reflexivity). rewrite IH by (intros; apply Hz; right; assumption). lra. Qed.
  Lemma total_sub (f : nat -> R) l n : NoDup l -> (forall j, In j l -> (j < n)%nat) -> (forall j, ~ In j l -> f j = 0) ->
    total f l = total f (seq 0 n).
  Proof.
    intros Hn Hl Hz.
    set (r := filter (fun j => negb (existsb (Nat.eqb j) l)) (seq 0 n)).
    assert (P : Permutation (seq 0 n) (l ++ r)).
    { apply NoDup_Permutation; [apply seq_NoDup| |].
      - assert (D : forall j, In j l -> In j r -> False).
        { intros j H1 H2. apply filter_In in H2. destruct H2 as [_ H2]. apply negb_true_iff in H2. apply (proj2 (existsb_in j l)) in H1. congruence. }
        assert (Hr : NoDup r) by (apply NoDup_filter, seq_NoDup). revert Hr D. generalize r. clear -Hn. intros r Hr D. induction Hn as [|j l Hj Hn IH]; [exact Hr|].
        cbn [app]. constructor; [|apply IH; intros; apply (D j0); [right|]; assumption]. rewrite in_app_iff. intros [H|H]; [auto|]. apply (D j); [left; reflexivity|exact H].
      - intros j. rewrite in_app_iff, in_seq. unfold r. rewrite filter_In, in_seq, negb_true_iff. split.
        + intros Hj. destruct (existsb (Nat.eqb j) l) eqn:Ex; [left; apply existsb_in; exact Ex|right; auto].
        + intros [Hj|[Hj _]]; [specialize (Hl j Hj); lia|lia]. }
    rewrite (total_perm _ _ _ P), total_app. rewrite (total_zero f r); [lra|]. intros j Hj. apply Hz. intros Hi.
    apply filter_In in Hj. destruct Hj as [_ Hj]. apply negb_true_iff in Hj. apply (proj2 (existsb_in j l)) in Hi. congruence.
  Qed.
  Lemma zero_val d : finite d -> not_zero d = false -> fval d = 0.
  Proof. destruct d; intros H1 H2; try contradiction; try discriminate. reflexivity. Qed.
  Lemma total_coefs g (l : list (nat * F)) : Forall (fun jd => finite (snd jd)) l ->
    total (fun t => fval (fst t) * g (snd t)) (flat_map coef l) =
    total (fun jd => (if not_zero (snd jd) then fval (rendered (snd jd)) else 0) * g (xname (fst jd))) l.
  Proof.
    induction 1 as [|[j d] l Hd Hf IH]; [reflexivity|]. cbn [flat_map]. rewrite total_app, IH. cbn [total fold_right fst snd].
    unfold coef. cbn [fst snd]. destruct (not_zero d); cbn [total fold_right fst snd]; unfold total; lra.
  Qed.
  Lemma total_map {A B} (f : B -> R) (h : A -> B) l : total f (map h l) = total (fun a => f (h a)) l.
  Proof. unfold total. induction l; cbn [fold_right map]; [reflexivity|]. rewrite IHl. reflexivity. Qed.
  Lemma total_ext {A} (f f' : A -> R) l : (forall a, In a l -> f a = f' a) -> total f l = total f' l.
  Proof. unfold total. induction l as [|a l IH]; intros He; cbn [fold_right]; [reflexivity|]. rewrite (He a) by (left; reflexivity). f_equal. apply IH. intros; apply He; right; assumption. Qed.

  (** When every number of the problem is read back unchanged (see C44 for which are), the
      file has the problem's feasible points and objective: over the reals,
      a row holds at a point exactly when [sum_j a_ij x_j = b_i]; the bounds and the
      objective are those of the problem. *)
  Theorem C43_meaning c a b l u ints x0 p text doc (g : string -> R) :
    milp_new c a b l u ints x0 = Ok p -> lp_sane c a b l u ->
    (forall i, (i < coo_rows a)%nat -> exists j, not_zero (coefficient a i j) = true) ->
    (forall x, In x c \/ In x b \/ In x l \/ In x u \/ (exists i j, x = coefficient a i j) -> prints_as x x) ->
    write_to_lp_file p = Ok text -> read_lp (words text) = Some doc ->
    total (fun t => fval (fst t) * g (snd t)) (d_obj doc) =
      total (fun jc => fval (snd jc) * g (xname (fst jc))) (combine (seq 0 (length c)) c) /\
    length (d_rows doc) = coo_rows a /\
    (forall i row bi, nth_error (d_rows doc) i = Some row -> nth_error b i = Some bi ->
       (row_holds g row <-> total (fun j => fval (coefficient a i j) * g (xname j)) (seq 0 (coo_cols a)) = fval bi)) /\
    (forall j lj uj, nth_error l j = Some lj -> nth_error u j = Some uj -> nth_error (d_bounds doc) j = Some (lj, xname j, uj)).
  Proof.
    intros E (Hb & Hin & Hc & Fc & Fa & Nb & Nl & Nu) Hnz Hx Ew Ed.
    destruct (milp_new_inv _ _ _ _ _ _ _ _ E) as (_ & _ & _ & _ & _ & _ & Lb & Ll & Lu & Li).
    rewrite (write_eq _ _ _ _ _ _ _ _ E Hb Hin Hc) in Ew. injection Ew as <-.
    assert (Er : read_lp (words (file_text fsin fcos c (rows_of a b) (bounds_of (coo_cols a) l u) ints)) =
                 Some (doc_of c (rows_of a b) (bounds_of (coo_cols a) l u) ints)).
    { apply read_file; [exact Fc| |].
    1:{ apply Forall_forall. intros e He. apply in_map_iff in He. destruct He as (i & <- & Hi). apply in_seq in Hi. cbn [fst snd]. split; [|split].
        + apply Forall_forall. intros [j v] Hj. apply merged_coef in Hj. destruct Hj as [_ ->]. apply Fa.
        + destruct (Hnz i) as (j & Hj); [lia|]. apply existsb_exists. exists (j, coefficient a i j). split; [|exact Hj].
          apply merged_coef. split; [|reflexivity]. destruct (in_dec Nat.eq_dec j (map fst (row_of i (entries a)))) as [H|H]; [exact H|].
          rewrite (absent_coef a i j H) in Hj. discriminate.
        + rewrite Forall_forall in Nb. apply Nb. apply nth_In. lia. }
    1:{ apply Forall_forall. intros e He. apply in_map_iff in He. destruct He as (j & <- & Hj). apply in_seq in Hj. cbn [fst snd].
        rewrite Forall_forall in Nl, Nu. split; [apply Nl|apply Nu]; apply nth_In; lia. } }
    assert (Ed' := eq_trans (eq_sym Er) Ed). injection Ed' as <-. clear Er Ed. unfold doc_of. cbn [d_obj d_rows d_bounds]. split; [|split; [|split]].
    - rewrite total_coefs.
      2:{ apply Forall_forall. intros [j d] Hj. apply in_combine_r in Hj. rewrite Forall_forall in Fc. apply Fc. exact Hj. }
      apply total_ext. intros [j d] Hj. cbn [fst snd]. assert (Hd : In d c) by (apply in_combine_r in Hj; exact Hj).
      destruct (not_zero d) eqn:En; [|rewrite zero_val; [reflexivity| |exact En]; rewrite Forall_forall in Fc; apply Fc; exact Hd].
      rewrite (proj1 (rendered_iff d d) (Hx d (or_introl Hd))). reflexivity.
    - unfold rows_of. rewrite !map_length, seq_length. reflexivity.
    - intros i row bi Er Ebi. unfold rows_of in Er. rewrite map_map, nth_error_map in Er. destruct (nth_error (seq 0 (coo_rows a)) i) as [i'|] eqn:Ei; [|discriminate].
      assert (Hi : (i < coo_rows a)%nat) by (rewrite <- (seq_length (coo_rows a) 0); apply nth_error_Some; congruence).
      rewrite nth_error_seq in Ei by exact Hi. injection Ei as <-. cbn [option_map fst snd Nat.add] in Er. injection Er as <-.
      unfold row_holds. cbn [row_doc r_terms r_rhs]. rewrite total_coefs.
      2:{ apply Forall_forall. intros [j v] Hj. apply merged_coef in Hj. destruct Hj as [_ ->]. apply Fa. }
      rewrite (nth_error_nth b i (S754_zero false : F) Ebi). rewrite (proj1 (rendered_iff bi bi)) by (apply Hx; right; left; apply nth_error_In with i; exact Ebi).
      unfold merged_row at 1. rewrite total_map. cbn [fst snd].
      rewrite (total_ext _ (fun j => fval (coefficient a i j) * g (xname j))).
      2:{ intros j Hj. fold (coefficient a i j). destruct (not_zero (coefficient a i j)) eqn:En.
          - rewrite (proj1 (rendered_iff _ _) (Hx (coefficient a i j) (or_intror (or_intror (or_intror (or_intror (ex_intro _ i (ex_intro _ j eq_refl)))))))). reflexivity.
          - rewrite zero_val; [reflexivity|apply Fa|exact En]. }
      rewrite (total_sub _ _ (coo_cols a)).
      + reflexivity.
      + apply firsts_NoDup.
      + intros j Hj. apply (proj1 (in_firsts _ _)) in Hj. apply in_map_iff in Hj. destruct Hj as ([j' v] & <- & Hj). unfold row_of in Hj.
        apply in_map_iff in Hj. destruct Hj as ([[i' j''] v'] & Ee & Hf). cbn [fst snd] in Ee. injection Ee as -> ->. apply filter_In in Hf. apply (Hin _ _ _ (proj1 Hf)).
      + intros j Hj. rewrite in_firsts in Hj. rewrite (absent_coef a i j Hj). cbn. apply Rmult_0_l.
    - intros j lj uj Hl Hu. unfold bounds_of. rewrite map_map, nth_error_map.
      assert (Hj : (j < coo_cols a)%nat) by (rewrite <- Ll; apply nth_error_Some; congruence).
      rewrite nth_error_seq by exact Hj. cbn [option_map fst snd Nat.add]. rewrite (nth_error_nth l j n0 Hl), (nth_error_nth u j n0 Hu).
      rewrite (proj1 (rendered_iff lj lj)), (proj1 (rendered_iff uj uj)); [reflexivity| |].
      + apply Hx. do 3 right. left. apply nth_error_In with j. exact Hu.
      + apply Hx. do 2 right. left. apply nth_error_In with j. exact Hl.
  Qed.
End Lp.

(** Not every well-formed problem is written as a legal file: a row without a
    coefficient that is not zero has no terms, and NaN coefficients vanish. *)
#[local] Existing Instance NumF0.
Definition c43_milp (c : list F) (ri ci : list nat) (d b : list F) (ints : list bool) : res (milp F) :=
  let n := length c in
  rbind (coo_new (length b) n ri ci d) (fun a => milp_new c a b (repeat (flit (-1)) n) (repeat (S754_infinity false) n) ints None).
Theorem C43_zero_row_refuted : exists c a b l u ints p text,
  milp_new c a b l u ints None = Ok p /\ coo_built a /\
  (forall i j v, In (i, j, v) (entries a) -> i < coo_rows a /\ j < coo_cols a) /\ length c = coo_cols a /\ length b = coo_rows a /\
  Forall finite (c ++ b ++ coo_data a ++ l ++ u) /\
  write_to_lp_file p = Ok text /\ @read_lp F _ _ (words text) = None.
Proof.
  assert (C : match coo_new 1 2 [0; 0]%nat [0; 1]%nat [flit 0; flit 0] with
              | Ok a => match milp_new [flit 1; flit 1] a [flit 0] [flit 0; flit 0] [flit 1; flit 1] [false; false] None with
                        | Ok p => match write_to_lp_file p with
                                  | Ok text => match @read_lp F _ _ (words text) with None => true | Some _ => false end
                                  | Panic _ => false end
                        | Panic _ => false end
              | Panic _ => false end = true) by (vm_compute; reflexivity).
  destruct (coo_new 1 2 [0; 0]%nat [0; 1]%nat [flit 0; flit 0]) as [a|] eqn:Ea; [|discriminate].
  destruct (milp_new [flit 1; flit 1] a [flit 0] [flit 0; flit 0] [flit 1; flit 1] [false; false] None) as [p|] eqn:Ep; [|discriminate].
  destruct (write_to_lp_file p) as [text|] eqn:Ew; [|discriminate].
  destruct (@read_lp F _ _ (words text)) eqn:Er; [discriminate|]. clear C.
  exists [flit 1; flit 1], a, [flit 0], [flit 0; flit 0], [flit 1; flit 1], [false; false], p.
  exists text. split; [exact Ep|]. split; [apply (built_new _ _ _ _ _ _ Ea)|]. clear Ep.
  vm_compute in Ea. injection Ea as <-.
  split; [intros i j v [H|[H|[]]]; injection H as <- <- <-; cbn; lia|]. split; [reflexivity|]. split; [reflexivity|].
  split; [cbn; repeat constructor|]. split; [exact Ew|exact Er].
Qed.
(** A problem satisfying the hypotheses: duplicates, a zero, an infinite bound, integers. *)
Example C43_example :
  match c43_milp [flit 2; flit (-1); flit 0] [0; 1; 0; 0; 1]%nat [0; 2; 1; 0; 1]%nat [flit 1; flit 3; flit 0; flit 4; flit (-1)] [flit 7; flit (-2)] [true; false; true] with
  | Ok p =>
    match write_to_lp_file p with
    | Ok text =>
      lines text = ["Minimize"; " obj:"; "     + 2.0000000000e0 x_0"; "     - x_1"; "Subject to";
        "  c_0:"; "     + 5.0000000000e0 x_0"; "     = 7.0000000000e0";
        "  c_1:"; "     + 3.0000000000e0 x_2"; "     - x_1"; "     = -2.0000000000e0";
        "Bounds"; " -1.0000000000e0 <= x_0 <= inf"; " -1.0000000000e0 <= x_1 <= inf"; " -1.0000000000e0 <= x_2 <= inf";
        "General"; " x_0"; " x_2"; "End"] /\
      read_lp (words text) = Some (mk_doc "obj" [(flit 2, "x_0"); (flit (-1), "x_1")]
        [mk_row "c_0" [(flit 5, "x_0")] (flit 7); mk_row "c_1" [(flit 3, "x_2"); (flit (-1), "x_1")] (flit (-2))]
        [(flit (-1), "x_0", S754_infinity false); (flit (-1), "x_1", S754_infinity false); (flit (-1), "x_2", S754_infinity false)]
        ["x_0"; "x_2"])
    | _ => False
    end
  | _ => False
  end.
Proof. vm_compute. split; reflexivity. Qed.
