(** Properties C37-C42: sparse matrices and problem objects. *)
From Verif Require Import Base Num Matrix MatSpec Problem NodeInd MatrixProofs SumDupProofs CsrProofs ProblemProofs.
From Coq Require Import Floats.SpecFloat.

(** ** C37 COO to CSR conversion *)
(** The rows of the result are the rows of the matrix, entries in their original
    order; the call panics exactly when a row index is out of range. *)
Theorem C37_to_csr {T} `{MatItem T} (m : coo T) :
  coo_built m ->
  ((forall r, In r (coo_ri m) -> r < coo_rows m) ->
   to_csr m = Ok (csr_of (coo_cols m) (map (fun r => row_of r (entries m)) (seq 0 (coo_rows m))))) /\
  ((exists r, In r (coo_ri m) /\ coo_rows m <= r) -> to_csr m = Panic PIndex).
Proof.
  intros Hb. apply coo_built_wf in Hb. rewrite to_csr_eq by auto. split.
  - intros Hr. rewrite (proj2 (forallb_forall _ _)); [reflexivity|].
    intros r Hin. apply Nat.ltb_lt; auto.
  - intros (r & Hin & Hr). destruct (forallb _ _) eqn:E; auto.
    rewrite forallb_forall in E. apply E, Nat.ltb_lt in Hin. lia.
Qed.
(** Row pointers of [csr_of]: start at 0, never decrease, end at the number of
    entries; the slice between two of them is the row. *)
Theorem C37_row_pointers {T} cols (rows : list (list (nat * T))) :
  let m := csr_of cols rows in
  length (csr_indptr m) = S (length rows) /\
  nth_error (csr_indptr m) 0 = Some 0 /\
  nth_error (csr_indptr m) (length rows) = Some (length (csr_data m)) /\
  length (csr_indices m) = length (csr_data m) /\
  forall r row, nth_error rows r = Some row ->
    exists a, nth_error (csr_indptr m) r = Some a /\
              nth_error (csr_indptr m) (S r) = Some (a + length row) /\
              firstn (length row) (skipn a (combine (csr_indices m) (csr_data m))) = row.
Proof.
  intros m. unfold m, csr_of; cbn [csr_indptr csr_indices csr_data].
  assert (Hl : forall l, length (row_starts l) = S (length l)) by (intros; apply row_starts_length).
  assert (Hg : forall l r, r <= length l -> nth_error (row_starts l) r = Some (list_sum (firstn r l))).
  { intros l r Hr. pose proof (row_starts_get l r Hr) as G. unfold vget in G.
    destruct (nth_error (row_starts l) r); inversion G; auto. }
  assert (Hs : forall l : list (list (nat * T)), list_sum (map (@length _) l) = length (concat l)).
  { induction l; cbn; auto. rewrite app_length, <- IHl. reflexivity. }
  split; [rewrite Hl, map_length; reflexivity|]. split; [rewrite Hg by lia; reflexivity|].
  split; [rewrite Hg by (rewrite map_length; lia); rewrite firstn_all2 by (rewrite map_length; lia); rewrite Hs, map_length; reflexivity|].
  split; [rewrite !map_length; reflexivity|].
  intros r row E. assert (Hr : r < length rows) by (apply nth_error_Some; congruence).
  apply nth_error_split in E as (l1 & l2 & -> & <-).
  exists (length (concat l1)). rewrite !Hg by (rewrite map_length, app_length; cbn; lia).
  rewrite !firstn_map, !Hs.
  assert (F1 : firstn (length l1) (l1 ++ row :: l2) = l1).
  { rewrite firstn_app, Nat.sub_diag, firstn_all. cbn. apply app_nil_r. }
  assert (F2 : firstn (S (length l1)) (l1 ++ row :: l2) = l1 ++ [row]).
  { rewrite firstn_app, (firstn_all2 l1) by lia. replace (S (length l1) - length l1) with 1 by lia. reflexivity. }
  rewrite F1, F2. split; [reflexivity|]. split.
  - rewrite concat_app, app_length. cbn. rewrite app_nil_r. reflexivity.
  - assert (Hc : forall l : list (nat * T), combine (map fst l) (map snd l) = l).
    { induction l as [|[x y] l IH]; cbn; congruence. }
    rewrite Hc, concat_app. cbn [concat]. rewrite skipn_app, skipn_all, Nat.sub_diag. cbn [app skipn].
    rewrite firstn_app, Nat.sub_diag, firstn_all. cbn. apply app_nil_r.
Qed.

(** ** C38 Merging duplicates *)
(** For every CSR matrix the constructor accepts with row pointers that start
    at 0 and never decrease (which [to_csr] always produces). *)
Theorem C38_sum_duplicates {T} `{MatItem T} nrows cols indptr indices data (m : csr T) :
  csr_new nrows cols indptr indices data = Ok m -> sorted_ptr indptr ->
  exists rows, m = csr_of cols rows /\ length rows = nrows /\
    ((forall c, In c indices -> c < cols) ->
       sum_duplicates m = Ok (csr_of cols (map merged_row rows)) /\
       sum_duplicates (csr_of cols (map merged_row rows)) = Ok (csr_of cols (map merged_row rows))) /\
    ((exists c, In c indices /\ cols <= c) -> sum_duplicates m = Panic PIndex).
Proof.
  intros E Hs. destruct (csr_is_rows _ _ _ _ _ _ E Hs) as [Em Hl].
  assert (Hi : csr_indices m = indices).
  { unfold csr_new, rassert in E. destruct (_ =? _) in E; [|discriminate]. cbn in E.
    destruct (_ =? _) in E; [|discriminate]. cbn in E. destruct (unwrap _) as [z|] in E; [|discriminate]. cbn in E.
    destruct (_ =? _) in E; [|discriminate]. inversion E; reflexivity. }
  exists (rows_of m). split; [exact Em|]. split; [exact Hl|].
  assert (Hi' : indices = map fst (concat (rows_of m))).
  { rewrite <- Hi, Em at 1. reflexivity. }
  assert (Hok : forallb (cols_ok cols) (rows_of m) = true <-> (forall c, In c indices -> c < cols)).
  { rewrite Hi', forallb_forall. unfold cols_ok. split.
    - intros Hf c Hc. apply in_map_iff in Hc as (e & <- & He). apply in_concat in He as (row & Hr & He).
      specialize (Hf row Hr). rewrite forallb_forall in Hf. apply Nat.ltb_lt, Hf; auto.
    - intros Hf row Hr. apply forallb_forall. intros e He. apply Nat.ltb_lt, Hf.
      apply in_map. apply in_concat; eauto. }
  split.
  - intros Hc. rewrite Em at 1. rewrite !sum_duplicates_eq. rewrite (proj2 Hok Hc). split; [reflexivity|].
    rewrite (proj2 (forallb_forall _ _)).
    + f_equal. f_equal. rewrite map_map. apply map_ext. intros; apply merged_idem.
    + intros row Hr. apply in_map_iff in Hr as (row' & <- & Hr). rewrite cols_ok_merged.
      apply Hok in Hc. rewrite forallb_forall in Hc. auto.
  - intros (c & Hin & Hc). rewrite Em, sum_duplicates_eq.
    destruct (forallb (cols_ok cols) (rows_of m)) eqn:Ef; auto.
    pose proof (proj1 Hok eq_refl c Hin). lia.
Qed.
(** What [merged_row] is: the columns present, each once, in order of first
    occurrence; and per column the same total, so the matrix is unchanged. *)
Theorem C38_merged_row {T} `{MatItem T} (row : list (nat * T)) :
  NoDup (map fst (merged_row row)) /\
  (forall c, In c (map fst (merged_row row)) <-> In c (map fst row)) /\
  (forall c, sum1 (at_col c (merged_row row)) = sum1 (at_col c row)) /\
  (forall l c l', map fst row = l ++ c :: l' -> ~ In c l ->
     exists m m', map fst (merged_row row) = m ++ c :: m' /\ forall x, In x m <-> In x l).
Proof.
  rewrite merged_fst. split; [apply firsts_NoDup|]. split; [intros; apply in_firsts|]. split.
  - intros c. destruct (in_dec Nat.eq_dec c (map fst row)) as [Hin|Hn].
    + assert (Hm : In (c, sum1 (at_col c row)) (merged_row row)).
      { unfold merged_row. apply in_map_iff. exists c. split; auto. apply in_firsts; auto. }
      assert (Hnd : NoDup (map fst (merged_row row))) by (rewrite merged_fst; apply firsts_NoDup).
      replace (at_col c (merged_row row)) with [sum1 (at_col c row)]; [reflexivity|].
      revert Hm Hnd. generalize (merged_row row) as l, (sum1 (at_col c row)) as v. clear.
      induction l as [|[c' v'] l IH]; intros v Hm Hnd; [destruct Hm|].
      cbn [map fst] in Hnd. inversion Hnd as [|? ? N1 N2]; subst. unfold at_col in *. cbn [filter fst].
      destruct Hm as [Em|Hm].
      * inversion Em; subst. rewrite Nat.eqb_refl. cbn. f_equal.
        replace (filter (fun e => fst e =? c) l) with (@nil (nat * T)); auto.
        clear -N1. induction l as [|[a b] l IH]; cbn in *; auto.
        destruct (a =? c) eqn:E; [apply Nat.eqb_eq in E; tauto|]. apply IH; tauto.
      * destruct (c' =? c) eqn:E; auto. apply Nat.eqb_eq in E; subst. exfalso. apply N1.
        apply in_map_iff. exists (c, v); auto.
    + assert (G : forall l : list (nat * T), ~ In c (map fst l) -> at_col c l = []).
      { intros l Hl. unfold at_col. induction l as [|[a b] l IH]; cbn in *; auto.
        destruct (a =? c) eqn:E; [apply Nat.eqb_eq in E; tauto|]. apply IH; tauto. }
      rewrite !G; auto. rewrite merged_fst, in_firsts. auto.
  - intros l c l' E Hn. exists (firsts l). rewrite E.
    assert (G : exists m', firsts (l ++ c :: l') = firsts l ++ c :: m').
    { clear E. induction l as [|a l IH]; cbn [app firsts].
      - eexists; reflexivity.
      - destruct IH as (m' & ->); [cbn in Hn; tauto|]. rewrite filter_app. cbn [filter].
        destruct (c =? a) eqn:E; [apply Nat.eqb_eq in E; subst; cbn in Hn; tauto|]. cbn. eexists; reflexivity. }
    destruct G as (m' & G). exists m'. split; auto. intros; apply in_firsts.
Qed.

(** ** C39 Matrix-vector product *)
Theorem C39_mul {T} `{MatItem T} (m : coo T) (x : list T) :
  coo_built m ->
  (length x <> coo_cols m -> coo_mul m x = Panic PAssert) /\
  (length x = coo_cols m ->
   (forall i j v, In (i, j, v) (entries m) -> i < coo_rows m /\ j < coo_cols m) ->
   coo_mul m x = Ok (map (fun r => row_dot (row_of r (entries m)) x) (seq 0 (coo_rows m)))) /\
  (length x = coo_cols m ->
   (exists i j v, In (i, j, v) (entries m) /\ (coo_rows m <= i \/ coo_cols m <= j)) ->
   coo_mul m x = Panic PIndex).
Proof.
  intros Hb. apply coo_built_wf in Hb. rewrite coo_mul_eq by auto. split; [|split].
  - intros Hl. rewrite (proj2 (Nat.eqb_neq _ _)) by auto. reflexivity.
  - intros Hl Hin. rewrite Hl, Nat.eqb_refl, (proj2 (forallb_forall _ _)); [reflexivity|].
    intros [[i j] v] He. unfold in_range; cbn. destruct (Hin i j v He).
    apply andb_true_iff; split; apply Nat.ltb_lt; auto.
  - intros Hl (i & j & v & He & Hout). rewrite Hl, Nat.eqb_refl.
    destruct (forallb _ _) eqn:E; auto. rewrite forallb_forall in E. specialize (E _ He).
    unfold in_range in E; cbn in E. apply andb_true_iff in E as [E1 E2].
    apply Nat.ltb_lt in E1, E2. lia.
Qed.

(** ** C40 Iteration *)
(** The first [nnz] calls return the entries in storage order and the next one
    [None]; after that the iterator starts again (it is not fused). *)
Theorem C40_iter {T} `{MatItem T} (m : coo T) n :
  coo_built m ->
  length (entries m) = coo_nnz m /\
  (forall k, k < coo_nnz m -> exists i j v,
     nth_error (entries m) k = Some (i, j, v) /\ nth_error (coo_ri m) k = Some i /\
     nth_error (coo_ci m) k = Some j /\ nth_error (coo_data m) k = Some v) /\
  nexts m n 0 = Ok (map (fun i => nth_error (entries m) (i mod S (coo_nnz m))) (seq 0 n)).
Proof.
  intros Hb. apply coo_built_wf in Hb. split; [apply entries_length; auto|]. split.
  - intros k Hk. destruct Hb as [W1 W2]. unfold coo_nnz in Hk.
    destruct (nth_error (coo_ri m) k) as [i|] eqn:E1; [|apply nth_error_None in E1; lia].
    destruct (nth_error (coo_ci m) k) as [j|] eqn:E2; [|apply nth_error_None in E2; lia].
    destruct (nth_error (coo_data m) k) as [v|] eqn:E3; [|apply nth_error_None in E3; lia].
    exists i, j, v. split; auto. unfold entries.
    erewrite combine_nth_error; [reflexivity| |eauto]. erewrite combine_nth_error; [reflexivity|eauto|eauto].
  - rewrite nexts_ok by (auto; lia). reflexivity.
Qed.
(** A [for] loop over [iter()] sees exactly the entries. *)
Theorem C40_for_loop {T} `{MatItem T} (m : coo T) :
  coo_built m -> coo_items m = Ok (entries m).
Proof. intros Hb. apply coo_items_ok, coo_built_wf, Hb. Qed.

(** ** C41 Hessian combination *)
(** After any history of [evaluate] and [combine_h] calls. *)
Theorem C41_combine_h {T} `{Num T} hphi a b j (h : list (coo T)) l u p x0 ev q0 q nu :
  Forall coo_built h -> keeps_shape ev ->
  minlp_new hphi a b j h l u p x0 ev = Ok q0 -> evolves q0 q ->
  (length nu = m_nf q0 ->
   exists q', combine_h q nu = Ok q' /\
     entries (m_hcomb q') =
       concat (map (fun x => map (fun e => (fst e, nmul (snd x) (snd e))) (entries (fst x)))
                   (combine (b_h (m_bufs q)) nu)) /\
     m_bufs q' = m_bufs q /\ m_a q' = m_a q /\ m_b q' = m_b q /\
     coo_ri (m_hcomb q') = coo_ri (m_hcomb q0) /\ coo_ci (m_hcomb q') = coo_ci (m_hcomb q0)) /\
  (length nu <> m_nf q0 -> combine_h q nu = Panic PAssert).
Proof.
  intros Hb Hk E Hq.
  assert (Hh : Forall coo_wf h) by (eapply Forall_impl; [|exact Hb]; intros; apply coo_built_wf; auto).
  destruct (minlp_new_inv _ _ _ _ _ _ _ _ _ _ _ Hh E) as [D ->].
  unfold m_nf at 1 2. cbn [made m_bufs b_f]. rewrite repeat_length.
  destruct (combine_h_ok _ _ _ _ _ _ _ _ _ _ _ nu Hk Hh D Hq) as [H1 H2]. split; [|exact H2].
  intros Hn. destruct (H1 Hn) as (q' & E' & Q1 & Q2 & Q3 & Q4 & Q5 & Q6 & Q7 & Q8 & Q9 & Q10 & Q11).
  exists q'. repeat split; auto.
  - assert (Hq' : evolves (made hphi a b j h l u p x0 ev) q') by (eapply ev_comb; eauto).
    destruct (evolves_inv _ _ _ _ _ _ _ _ _ _ _ Hk Hh D Hq') as (bf & d & _ & _ & ->). reflexivity.
  - assert (Hq' : evolves (made hphi a b j h l u p x0 ev) q') by (eapply ev_comb; eauto).
    destruct (evolves_inv _ _ _ _ _ _ _ _ _ _ _ Hk Hh D Hq') as (bf & d & _ & _ & ->). reflexivity.
Qed.

(** ** C42 Views of a linear problem *)
Theorem C42_lp_views {T} `{Num T} c (a : coo T) b l u x0 (p : lp T) :
  lp_new c a b l u x0 = Ok p ->
  length c = coo_cols a /\
  (* the Milp view *)
  milp_c (lp_milp p) = c /\
  (* the Minlp view (of the Milp view) and the Nlp view *)
  forall v, v = milp_base (lp_milp p) \/ v = nlp_base (lp_nlp p) ->
    m_a v = a /\ m_b v = b /\ m_l v = l /\ m_u v = u /\ m_x0 v = x0 /\
    m_p v = repeat false (length c) /\ b_f (m_bufs v) = [] /\ b_h (m_bufs v) = [] /\
    entries (b_hphi (m_bufs v)) = [] /\ entries (b_j (m_bufs v)) = [] /\ entries (m_hcomb v) = [].
Proof.
  intros E. unfold lp_new, milp_new, nlp_new in E.
  apply rbind_ok in E as (bm & E1 & E). apply rbind_ok in E as (bn & E2 & E).
  apply rbind_ok in E1 as (q1 & E1 & E1'). apply rbind_ok in E2 as (q2 & E2 & E2').
  inversion E; inversion E1'; inversion E2'; subst; clear E E1' E2'.
  apply minlp_new_inv in E1 as [D1 ->]; [|constructor]. apply minlp_new_inv in E2 as [D2 ->]; [|constructor].
  assert (Hc : length c = coo_cols a) by (destruct D2 as (D & _); cbn in D; auto).
  split; [exact Hc|]. split; [reflexivity|].
  intros v [->| ->]; cbn; rewrite ?Hc; repeat split; auto.
Qed.
(** The Minlp view of a Milp. *)
Theorem C42_milp_view {T} `{Num T} c (a : coo T) b l u pi x0 (p : milp T) :
  milp_new c a b l u pi x0 = Ok p ->
  milp_c p = c /\
  let v := milp_base p in
  m_a v = a /\ m_b v = b /\ m_l v = l /\ m_u v = u /\ m_x0 v = x0 /\ m_p v = pi /\
  b_f (m_bufs v) = [] /\ b_h (m_bufs v) = [] /\
  entries (b_hphi (m_bufs v)) = [] /\ entries (b_j (m_bufs v)) = [] /\ entries (m_hcomb v) = [].
Proof.
  intros E. unfold milp_new in E. apply rbind_ok in E as (q1 & E1 & E). inversion E; subst.
  apply minlp_new_inv in E1 as [D1 ->]; [|constructor]. cbn. repeat split; auto.
Qed.
(** Evaluation in any view, after any history. *)
Theorem C42_linear_evaluate {T} `{Num T} c (a : coo T) b l u pi x0 (v0 v : minlp T) x :
  ((exists p, lp_new c a b l u x0 = Ok p /\ (v0 = milp_base (lp_milp p) \/ v0 = nlp_base (lp_nlp p))) \/
   (exists p, milp_new c a b l u pi x0 = Ok p /\ v0 = milp_base p /\ length c = coo_cols a)) ->
  evolves v0 v ->
  (length x = length c ->
   exists v', minlp_evaluate v x = Ok v' /\ b_phi (m_bufs v') = dot_val c x /\ b_gphi (m_bufs v') = c /\
     m_a v' = a /\ m_b v' = b /\ m_l v' = l /\ m_u v' = u /\ m_x0 v' = x0 /\ b_f (m_bufs v') = []) /\
  (length x <> length c -> minlp_evaluate v x = Panic PAssert).
Proof.
  intros Hv0 Hev.
  assert (Hmade : exists h0 j0 p0, v0 = made h0 a b j0 [] l u p0 x0 (linear_eval c) /\
                  dims_ok h0 a b j0 [] l u p0 /\ length c = coo_cols a).
  { destruct Hv0 as [(p & E & Hv)|(p & E & -> & Hc)].
    - unfold lp_new, milp_new, nlp_new in E.
      apply rbind_ok in E as (bm & E1 & E). apply rbind_ok in E as (bn & E2 & E).
      apply rbind_ok in E1 as (q1 & E1 & E1'). apply rbind_ok in E2 as (q2 & E2 & E2').
      inversion E; inversion E1'; inversion E2'; subst; clear E E1' E2'.
      apply minlp_new_inv in E1 as [D1 ->]; [|constructor]. apply minlp_new_inv in E2 as [D2 ->]; [|constructor].
      assert (Hc : length c = coo_cols a) by (destruct D2 as (D & _); cbn in D; auto).
      destruct Hv as [->| ->]; cbn; do 3 eexists; split; eauto.
    - unfold milp_new in E. apply rbind_ok in E as (q1 & E1 & E). inversion E; subst.
      apply minlp_new_inv in E1 as [D1 ->]; [|constructor]. cbn. do 3 eexists; split; eauto. }
  destruct Hmade as (h0 & j0 & p0 & -> & D & Hc).
  destruct (evolves_inv _ _ _ _ _ _ _ _ _ _ _ (linear_eval_keeps c) (Forall_nil _) D Hev)
    as (bf & d & (S1 & S2 & _) & _ & ->). cbn in S1, S2. rewrite repeat_length in S1, S2.
  assert (Hj : coo_rows j0 = 0) by (destruct D as (_ & _ & _ & _ & D5 & _); cbn in D5; auto).
  unfold minlp_evaluate; cbn [m_eval m_bufs]. unfold linear_eval, dot. split.
  - intros Hx. rewrite Hx, Nat.eqb_refl. cbn [rassert rbind]. unfold copy_from_slice.
    rewrite S1, <- Hc, Nat.eqb_refl. cbn [rbind]. eexists; split; [reflexivity|]. cbn. repeat split; auto.
    rewrite Hj in S2. destruct (b_f bf); [auto|discriminate].
  - intros Hx. rewrite (proj2 (Nat.eqb_neq _ _)) by auto. reflexivity.
Qed.

(** ** Examples *)
Definition fz (z : Z) : F := flit z.
(** The matrix of the repository's test (coo.rs:180-215): a duplicate entry. *)
Definition ex_coo : coo F := mk_coo 2 3 [0; 1; 0; 0] [2; 0; 1; 2] [fz 5; fz 4; fz 1; fz 7].
Example ex_coo_built : @coo_built F (@mat_item_num F NumF0) ex_coo.
Proof. apply (built_new 2 3 [0; 1; 0; 0] [2; 0; 1; 2] [fz 5; fz 4; fz 1; fz 7]). reflexivity. Qed.
Example C37_example :
  @to_csr F (@mat_item_num F NumF0) ex_coo =
  Ok (csr_of 3 [[(2, fz 5); (1, fz 1); (2, fz 7)]; [(0, fz 4)]]).
Proof. reflexivity. Qed.
Example C38_example :
  @sum_duplicates F (@mat_item_num F NumF0) (csr_of 3 [[(2, fz 5); (1, fz 1); (2, fz 7)]; [(0, fz 4)]]) =
  Ok (csr_of 3 [[(2, fz 12); (1, fz 1)]; [(0, fz 4)]]).
Proof. vm_compute. reflexivity. Qed.
Example C39_example :
  @coo_mul F (@mat_item_num F NumF0) ex_coo [fz 1; fz 2; fz 3] = Ok [fz 38; fz 4].
Proof. vm_compute. reflexivity. Qed.
(** Two Hessians and multipliers. *)
Definition ex_h1 : coo F := mk_coo 2 2 [0; 1] [0; 0] [fz 2; fz 3].
Definition ex_h2 : coo F := mk_coo 2 2 [1] [1] [fz 4].
Definition ex_j : coo F := mk_coo 2 2 [] [] [].
Definition ex_a : coo F := mk_coo 1 2 [0] [1] [fz 1].
Definition ex_ev : eval_fn F := fun b _ => Ok b.
Example C41_example :
  @keeps_shape F ex_ev /\
  exists q0 q', @minlp_new F NumF0 (mk_coo 2 2 [] [] []) ex_a [fz 1] ex_j [ex_h1; ex_h2]
                  [fz 0; fz 0] [fz 1; fz 1] [false; true] None ex_ev = Ok q0 /\
    @combine_h F NumF0 q0 [fz 10; fz 100] = Ok q' /\
    entries (m_hcomb q') = [(0, 0, fz 20); (1, 0, fz 30); (1, 1, fz 400)].
Proof.
  split.
  - intros b x b' E. inversion E; subst. apply same_shape_refl.
  - do 2 eexists. split; [vm_compute; reflexivity|]. split; [vm_compute; reflexivity|]. vm_compute. reflexivity.
Qed.
Definition phi_of (r : res (lp F)) (x : list F) : option F :=
  match r with
  | Ok p => match @minlp_evaluate F (nlp_base (lp_nlp p)) x with Ok v => Some (b_phi (m_bufs v)) | Panic _ => None end
  | Panic _ => None
  end.
Lemma phi_of_some r x y : phi_of r x = Some y ->
  exists p v', r = Ok p /\ @minlp_evaluate F (nlp_base (lp_nlp p)) x = Ok v' /\ b_phi (m_bufs v') = y.
Proof.
  unfold phi_of. destruct r as [p|]; [|discriminate]. destruct (minlp_evaluate _ x) as [v|] eqn:E; [|discriminate].
  intros Ey. injection Ey as <-. exists p, v. auto.
Qed.
Example C42_example : exists p v',
  @lp_new F NumF0 [fz 2; fz 3] ex_a [fz 1] [fz 0; fz 0] [fz 1; fz 1] None = Ok p /\
  @minlp_evaluate F (nlp_base (lp_nlp p)) [fz 10; fz 20] = Ok v' /\
  b_phi (m_bufs v') = fz 80.
Proof. apply phi_of_some. vm_compute. reflexivity. Qed.
