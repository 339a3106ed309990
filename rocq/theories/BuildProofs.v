(** [std_problem] from the components on: it never fails on its own, and what
    the result is, in closed form. *)
From Verif Require Import Base Num Node NodeInd NodeStd Constraint Matrix Problem ModelStd MapProofs
     MatSpec MatrixProofs ProblemProofs GradProofs.
From Coq Require Import Sorted.

Section Index.
  Context {T : Type} `{Num T} `{HashOrd}.
  Variable vars : list (node T).
  Hypothesis Hnd : nodupk ptr_eq vars.

  Definition v2i_of : list (node T * nat) := map (fun iv => (snd iv, fst iv)) (enum vars).
  Definition ix (v : node T) : nat := match hget ptr_eq v v2i_of with Some i => i | None => 0 end.

  Lemma enum_keys : map fst v2i_of = vars.
  Proof.
    unfold v2i_of, enum. rewrite map_map. cbn. generalize 0 as s. clear Hnd.
    induction vars as [|v l IH]; intros s; cbn; auto. f_equal; auto.
  Qed.
  Lemma enum_in i v : In (v, i) v2i_of <-> nth_error vars i = Some v.
  Proof.
    unfold v2i_of, enum. rewrite in_map_iff.
    assert (G : forall l s, (exists x, (snd x, fst x) = (v, i) /\ In x (combine (seq s (length l)) l)) <->
                            s <= i /\ nth_error l (i - s) = Some v).
    { clear. induction l as [|w l IH]; intros s; cbn [length seq combine].
      - split; [intros (x & _ & [])|]. intros [_ E]. destruct (i - s); discriminate.
      - split.
        + intros ([j y] & E & [X|Hx]); cbn in E; inversion E; subst.
          * inversion X; subst. rewrite Nat.sub_diag. split; auto.
          * destruct (proj1 (IH (S s))) as [H1 H2]; [exists (i, v); auto|].
            split; [lia|]. replace (i - s) with (S (i - S s)) by lia. exact H2.
        + intros [H1 H2]. destruct (Nat.eq_dec i s) as [->|Hne].
          * rewrite Nat.sub_diag in H2. inversion H2; subst. exists (s, v). cbn; auto.
          * replace (i - s) with (S (i - S s)) in H2 by lia. cbn in H2.
            destruct (proj2 (IH (S s))) as ([j y] & E & Hx); [split; [lia|exact H2]|].
            exists (j, y). cbn; auto. }
    specialize (G vars 0). rewrite Nat.sub_0_r in G. split.
    - intros Hx. apply G; auto.
    - intros Hx. apply G. split; [lia|auto].
  Qed.
  Lemma hget_v2i v i : nth_error vars i = Some v -> hget ptr_eq v v2i_of = Some i.
  Proof. intros E. apply pget_in; [rewrite enum_keys; auto|]. apply enum_in; auto. Qed.
  Lemma v2i_hget v i : hget ptr_eq v v2i_of = Some i -> exists w, nth_error vars i = Some w /\ ptr_eq v w = true.
  Proof.
    intros E. apply hget_some_in in E as (w & Hw & Ew). apply enum_in in Hw. eauto.
  Qed.
  Lemma v2i_none v : hget ptr_eq v v2i_of = None -> forall w, In w vars -> ptr_eq v w = false.
  Proof.
    intros E w Hw. apply hget_none in E. rewrite enum_keys in E.
    apply not_true_is_false. intros X. assert (existsb (ptr_eq v) vars = true); [|congruence].
    apply existsb_exists. eauto.
  Qed.
  Lemma ix_nth v : In v vars -> nth_error vars (ix v) = Some v.
  Proof.
    intros Hv. apply In_nth_error in Hv as [i Hi]. unfold ix. rewrite (hget_v2i v i Hi). auto.
  Qed.
  Lemma nth_ix v i : nth_error vars i = Some v -> ix v = i.
  Proof. intros E. unfold ix. rewrite (hget_v2i v i E). auto. Qed.
  Lemma ix_lt v : In v vars -> ix v < length vars.
  Proof. intros Hv. apply nth_error_Some. rewrite ix_nth; auto; discriminate. Qed.
  Lemma vidx_ok v : In v vars -> vidx v2i_of v = Ok (ix v).
  Proof.
    intros Hv. unfold vidx. rewrite (hget_v2i v (ix v)); [reflexivity|]. apply ix_nth; auto.
  Qed.
  Lemma mapR_vidx {A} (f : A -> node T) l :
    Forall (fun a => In (f a) vars) l -> mapR (fun a => vidx v2i_of (f a)) l = Ok (map (fun a => ix (f a)) l).
  Proof.
    induction 1 as [|a l Ha Hl IH]; cbn; auto. rewrite vidx_ok by auto. cbn. rewrite IH. auto.
  Qed.

  Lemma nodup_pos i j (v w : node T) : nth_error vars i = Some v -> nth_error vars j = Some w -> ptr_eq v w = true -> i = j.
  Proof.
    intros Hi Hj E. pose proof (hget_v2i v i Hi) as G1. pose proof (hget_v2i w j Hj) as G2.
    rewrite (pget_eq v w v2i_of E) in G1. congruence.
  Qed.

  (** Writing one component of a vector indexed by the variables. *)
  Lemma vset_var {A} (g : node T -> A) w v i x :
    nth_error vars i = Some v -> ptr_eq w v = true ->
    vset (map g vars) i x = Ok (map (fun u => if ptr_eq u w then x else g u) vars).
  Proof.
    intros Hi E. rewrite vset_ok by (rewrite map_length; apply nth_error_Some; congruence). f_equal.
    assert (G : forall l s, (forall j u, nth_error l j = Some u -> nth_error vars (s + j) = Some u) ->
      (s <= i)%nat -> set_nth (map g l) (i - s) x = map (fun u => if ptr_eq u w then x else g u) l).
    { induction l as [|u l IH]; intros s Hl Hs; cbn; [reflexivity|].
      destruct (i - s) as [|d] eqn:Ed.
      - assert (i = s) by lia. subst s. f_equal.
        + pose proof (Hl 0 u eq_refl) as Hu. rewrite Nat.add_0_r, Hi in Hu. inversion Hu; subst.
          rewrite ptr_eq_sym, E; auto.
        + apply map_ext_in. intros u' Hu'. destruct (ptr_eq u' w) eqn:E'; auto. exfalso.
          apply In_nth_error in Hu' as [j Hj]. pose proof (Hl (S j) u' Hj) as Hu'.
          pose proof (nodup_pos _ _ _ _ Hi Hu') as X.
          assert (ptr_eq v u' = true).
          { apply ptr_eq_trans with w; [rewrite ptr_eq_sym; auto|rewrite ptr_eq_sym; auto]. }
          specialize (X H1). lia.
      - f_equal.
        + destruct (ptr_eq u w) eqn:E'; auto. exfalso. pose proof (Hl 0 u eq_refl) as Hu.
          pose proof (nodup_pos _ _ _ _ Hi Hu) as X.
          assert (ptr_eq v u = true).
          { apply ptr_eq_trans with w; [rewrite ptr_eq_sym; auto|rewrite ptr_eq_sym; auto]. }
          specialize (X H1). lia.
        + replace d with (i - S s) by lia. apply IH; [|lia].
          intros j u' Hj. replace (S s + j) with (s + S j) by lia. apply Hl. exact Hj. }
    specialize (G vars 0). rewrite Nat.sub_0_r in G. apply G; [|lia]. auto.
  Qed.
  Lemma vget_var {A} (g : node T -> A) v i : nth_error vars i = Some v -> vget (map g vars) i = Ok (g v).
  Proof. intros Hi. unfold vget. rewrite nth_error_map, Hi. reflexivity. Qed.

  Definition lookup {A} (d : node T -> A) (l : list (node T * A)) (v : node T) : A :=
    match hget ptr_eq v l with Some x => x | None => d v end.

  Lemma lookup_cons {A} (g : node T -> A) w x l v :
    nodupk ptr_eq (map fst ((w, x) :: l)) ->
    lookup (fun u => if ptr_eq u w then x else g u) l v = lookup g ((w, x) :: l) v.
  Proof.
    intros [Hw _]. unfold lookup. cbn. destruct (ptr_eq v w) eqn:E.
    - rewrite (pget_eq v w l E). destruct (hget ptr_eq w l) as [y|] eqn:G; auto.
      apply hget_some_in in G as (z & Hz & Ez). exfalso.
      assert (existsb (ptr_eq w) (map fst l) = true); [|cbn in Hw; congruence].
      apply existsb_exists. exists z. split; auto. apply (in_map fst) in Hz. exact Hz.
    - destruct (hget ptr_eq v l); auto.
  Qed.

  Lemma fill_ok {A} (l : list (node T * A)) : forall g : node T -> A,
    nodupk ptr_eq (map fst l) -> Forall (fun kv => In (fst kv) vars) l ->
    foldR (fun c kv => rbind (vidx v2i_of (fst kv)) (fun i => vset c i (snd kv))) l (map g vars) =
    Ok (map (lookup g l) vars).
  Proof.
    induction l as [|[w x] l IH]; intros g Hn HF; cbn [foldR].
    - reflexivity.
    - inversion HF as [|? ? Hw HF']; subst. cbn [fst] in Hw. cbn [fst snd].
      rewrite vidx_ok by auto. cbn [rbind].
      rewrite (vset_var g w w (ix w) x (ix_nth w Hw) (ptr_eq_refl w)). cbn [rbind].
      rewrite IH; auto; [|apply Hn]. f_equal. apply map_ext. intros v. apply lookup_cons. exact Hn.
  Qed.

  Lemma x0_ok {A} (l : list (node T * A)) : forall g : node T -> A,
    nodupk ptr_eq (map fst l) ->
    foldR (fun x vv => match hget ptr_eq (fst vv) v2i_of with Some i => vset x i (snd vv) | None => Ok x end)
          l (map g vars) = Ok (map (lookup g l) vars).
  Proof.
    induction l as [|[w x] l IH]; intros g Hn; cbn [foldR]; [reflexivity|]. cbn [fst snd].
    destruct (hget ptr_eq w v2i_of) as [i|] eqn:E.
    - apply v2i_hget in E as (v & Hv & Ev). rewrite (vset_var g w v i x Hv Ev). cbn [rbind].
      rewrite IH by apply Hn. f_equal. apply map_ext. intros u. apply lookup_cons. exact Hn.
    - cbn [rbind]. rewrite IH by apply Hn. f_equal. apply map_ext_in. intros u Hu. unfold lookup. cbn.
      rewrite (ptr_eq_sym u w), (v2i_none w E u Hu). reflexivity.
  Qed.

  (** Integrality mask and count. *)
  Lemma mask_ok l : forall g cnt,
    Forall (fun vi => nth_error vars (snd vi) = Some (fst vi)) l ->
    nodupk ptr_eq (map fst l) ->
    foldR (fun (st : list bool * nat) vi =>
             if is_integer (fst vi) then
               rbind (vset (fst st) (snd vi) true) (fun p => Ok (p, S (snd st)))
             else Ok st) l (map g vars, cnt) =
    Ok (map (fun v => g v || existsb (fun vi => ptr_eq v (fst vi) && is_integer (fst vi)) l) vars,
        cnt + length (filter (fun vi => is_integer (fst vi)) l)).
  Proof.
    induction l as [|[w i] l IH]; intros g cnt HF Hn; cbn [foldR].
    - cbn. rewrite Nat.add_0_r. f_equal. f_equal. apply map_ext. intros v. rewrite orb_false_r; auto.
    - inversion HF as [|? ? Hw HF']; subst. cbn [fst snd] in *. destruct Hn as [Hw' Hn].
      cbn [filter fst existsb]. destruct (is_integer w) eqn:Ei.
      + rewrite (vset_var g w w i true Hw (ptr_eq_refl w)). cbn [rbind snd].
        rewrite IH by auto. cbn [length]. f_equal. f_equal; [|lia].
        apply map_ext. intros v. destruct (ptr_eq v w); cbn; auto. rewrite orb_true_r. auto.
      + cbn [rbind]. rewrite IH by auto. f_equal. f_equal. apply map_ext. intros v.
        rewrite andb_false_r. auto.
  Qed.

  (** Bounds: the entries for one variable, in order. *)
  Definition bfold (better : T -> T -> bool) (v : node T) (es : list (node T * T * constraint T))
             (st : T * option (constraint T)) : T * option (constraint T) :=
    fold_left (fun st e => if ptr_eq v (fst (fst e)) && better (snd (fst e)) (fst st)
                           then (snd (fst e), Some (snd e)) else st) es st.

  Lemma bounds_ok better es : forall (g : node T -> T * option (constraint T)) cm,
    Forall (fun e => In (fst (fst e)) vars) es ->
    (forall i v, nth_error vars i = Some v -> hget Nat.eqb i cm = snd (g v)) ->
    nodupk Nat.eqb (map fst cm) -> Forall (fun ic => fst ic < length vars) cm ->
    exists cm', foldR (bound_step better v2i_of) es (map (fun v => fst (g v)) vars, cm) =
           Ok (map (fun v => fst (bfold better v es (g v))) vars, cm') /\
         (forall i v, nth_error vars i = Some v -> hget Nat.eqb i cm' = snd (bfold better v es (g v))) /\
         nodupk Nat.eqb (map fst cm') /\ Forall (fun ic => fst ic < length vars) cm'.
  Proof.
    induction es as [|[[w x] c] es IH]; intros g cm HF Hcm Hn Hlt; cbn [foldR].
    - exists cm. split; [reflexivity|]. auto.
    - inversion HF as [|? ? Hw HF']; subst. cbn [fst] in Hw.
      unfold bound_step at 1. rewrite vidx_ok by auto. cbn [rbind].
      rewrite (vget_var (fun v => fst (g v)) w (ix w) (ix_nth w Hw)). cbn [rbind].
      set (g' := fun v => if ptr_eq v w && better x (fst (g v)) then (x, Some c) else g v).
      assert (Hsame : forall v, ptr_eq v w = true -> In v vars -> v = w).
      { intros v E Hv. apply In_nth_error in Hv as [i Hi].
        pose proof (nodup_pos _ _ _ _ Hi (ix_nth w Hw) E) as X. subst i. rewrite (ix_nth w Hw) in Hi. congruence. }
      destruct (better x (fst (g w))) eqn:Eb.
      + rewrite (vset_var (fun v => fst (g v)) w w (ix w) x (ix_nth w Hw) (ptr_eq_refl w)). cbn [rbind].
        destruct (IH g' (hinsert Nat.eqb (ix w) c cm) HF') as (cm' & E & R1 & R2 & R3).
        * intros i v Hi. unfold g'. destruct (Nat.eq_dec i (ix w)) as [->|Hne].
          -- rewrite (ix_nth w Hw) in Hi. inversion Hi; subst v.
             rewrite (hget_hinsert_same Nat.eqb) by (auto using Nat.eqb_refl, Nat.eqb_sym;
               intros a b d E1 E2; apply Nat.eqb_eq in E1, E2; subst; apply Nat.eqb_refl).
             rewrite ptr_eq_refl, Eb. reflexivity.
          -- rewrite (hget_hinsert_other Nat.eqb).
             ++ rewrite (Hcm i v Hi). destruct (ptr_eq v w) eqn:E; auto. exfalso.
                pose proof (nodup_pos _ _ _ _ Hi (ix_nth w Hw) E). contradiction.
             ++ intros; apply Nat.eqb_sym.
             ++ intros a b d E1 E2; apply Nat.eqb_eq in E1, E2; subst; apply Nat.eqb_refl.
             ++ apply Nat.eqb_neq; auto.
        * apply nodupk_hinsert; auto. intros; apply Nat.eqb_sym.
        * assert (G : forall m : list (nat * constraint T), Forall (fun ic => fst ic < length vars) m ->
                     Forall (fun ic => fst ic < length vars) (hinsert Nat.eqb (ix w) c m)).
          { induction 1 as [|[j d] m Hj Hm IHm]; cbn.
            - constructor; auto. apply ix_lt; auto.
            - destruct (ix w =? j); constructor; auto. }
          apply G; auto.
        * exists cm'. split; [|split; [|split]]; auto.
          -- replace (map (fun u => if ptr_eq u w then x else fst (g u)) vars) with (map (fun v => fst (g' v)) vars).
             { rewrite E. reflexivity. }
             apply map_ext_in. intros v Hv. unfold g'. destruct (ptr_eq v w) eqn:Ev; auto. cbn.
             rewrite (Hsame v Ev Hv), Eb. reflexivity.
      + cbn [rbind].
        destruct (IH g' cm HF') as (cm' & E & R1 & R2 & R3); auto.
        * intros i v Hi. rewrite (Hcm i v Hi). unfold g'. destruct (ptr_eq v w) eqn:Ev; auto.
          rewrite (Hsame v Ev (nth_error_In _ _ Hi)), Eb. reflexivity.
        * exists cm'. split; [|split; [|split]]; auto.
          replace (map (fun v => fst (g v)) vars) with (map (fun v => fst (g' v)) vars); [rewrite E; auto|].
          apply map_ext_in. intros v Hv. unfold g'. destruct (ptr_eq v w) eqn:Ev; auto. cbn.
          rewrite (Hsame v Ev Hv), Eb. reflexivity.
  Qed.

  (** Hessians. *)
  Definition hess_of (n : nat) (hs : list (node T * node T * node T)) : coo T :=
    mk_coo n n (map (fun e => Nat.max (ix (fst (fst e))) (ix (snd (fst e)))) hs)
           (map (fun e => Nat.min (ix (fst (fst e))) (ix (snd (fst e)))) hs)
           (repeat n0 (length hs)).
  Lemma hess_mat_ok n hs :
    Forall (fun e => In (fst (fst e)) vars /\ In (snd (fst e)) vars) hs ->
    hess_mat v2i_of n hs = Ok (hess_of n hs, map snd hs).
  Proof.
    intros HF. unfold hess_mat.
    assert (G : mapR (fun e : node T * node T * node T => let '(v1, v2, ex) := e in
                 rbind (vidx v2i_of v1) (fun i => rbind (vidx v2i_of v2) (fun j =>
                 Ok (if j <=? i then (i, j, ex) else (j, i, ex))))) hs =
              Ok (map (fun e => (Nat.max (ix (fst (fst e))) (ix (snd (fst e))),
                                 Nat.min (ix (fst (fst e))) (ix (snd (fst e))), snd e)) hs)).
    { induction HF as [|[[v1 v2] e] hs [H1' H2'] HF IH]; [reflexivity|]. cbn [mapR map fst snd] in *.
      rewrite !vidx_ok by auto. cbn [rbind]. rewrite IH. cbn [rbind].
      destruct (Nat.leb_spec (ix v2) (ix v1));
        [rewrite Nat.max_l, Nat.min_r by lia|rewrite Nat.max_r, Nat.min_l by lia]; auto. }
    rewrite G. cbn [rbind]. unfold coo_new. rewrite ?map_length, ?repeat_length, ?map_length, ?Nat.eqb_refl.
    cbn. rewrite !map_map. unfold hess_of. reflexivity.
  Qed.
End Index.
