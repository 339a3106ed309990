(** Properties C13-C15, C18, C19: differentiation. *)
From Verif Require Import Base Num Node NodeDiff NodeStd NodeInd World MapProofs EvalProofs
     StdPropProofs PathProofs DerivProofs DiffSpec DiffProofs PanicProofs GradProofs HessProofs CompProofs
     Api ApiProofs ExprExtra Sim.
From Coq Require Import Reals Lra Floats.SpecFloat.
Local Open Scope R_scope.

(** ** C13 First derivatives are correct *)
Theorem C13_derivative_correct `{HashOrd} pool (e v d : nodeX) k k' (vs : valsX) x0 z :
  reach any_op k pool -> In e pool -> no_self_division e ->
  derivative e v k = Ok (d, k') ->
  evaluate vs e = Some z -> evaluate vs v = Some x0 ->
  exists l, evaluate vs d = Some l /\ has_derivative (fun t => evaluate (upd vs v t) e) x0 l.
Proof.
  intros Hr He Hd E Hz Hv. destruct (reach_world false k pool Hr) as (S & HW & HS).
  rewrite Forall_forall in HS.
  eapply (derivative_correct (fun x => sub x e)); eauto; [|constructor].
  eapply world_restrict; eauto.
Qed.
(** In particular for every history that never divides an expression by itself. *)
Theorem C13_derivative_correct_history `{HashOrd} pool (e v d : nodeX) k k' (vs : valsX) x0 z :
  reach no_self_quotient k pool -> In e pool ->
  derivative e v k = Ok (d, k') ->
  evaluate vs e = Some z -> evaluate vs v = Some x0 ->
  exists l, evaluate vs d = Some l /\ has_derivative (fun t => evaluate (upd vs v t) e) x0 l.
Proof.
  intros Hr He E Hz Hv. destruct (reach_world true k pool Hr) as (S & HW & HS).
  rewrite Forall_forall in HS. eapply (derivative_correct S); eauto.
Qed.
(** For a quotient of a node by itself the claim is false: the derivative of
    [x / x] is returned as an expression with the value [2 / x]. *)
Theorem C13_derivative_correct_refuted `{HashOrd} :
  exists k pool (e v d : nodeX) k' (vs : valsX) x0 z l,
    reach any_op k pool /\ In e pool /\ derivative e v k = Ok (d, k') /\
    evaluate vs e = Some z /\ evaluate vs v = Some x0 /\ evaluate vs d = Some l /\
    has_derivative (fun t => evaluate (upd vs v t) e) x0 0 /\ l <> 0.
Proof.
  set (x := NVar 0 "x"%string VarContinuous : nodeX).
  set (e := NDiv 1 x x : nodeX).
  set (vs := [(x, Some 1)] : valsX).
  assert (Hx : evaluate vs x = Some 1) by reflexivity.
  assert (He : evaluate vs e = Some (1 / 1)).
  { unfold e. cbn [evaluate]. rewrite Hx. cbn. destruct (Req_EM_T 1 0); [lra|reflexivity]. }
  assert (Hr : reach any_op 2 [x; e]).
  { apply (reach_step any_op 1%nat [x] (ODivNN 0 0)); [|exact I|reflexivity].
    apply (reach_step any_op 0%nat [] (OVar "x"%string VarContinuous)); [constructor|exact I|reflexivity]. }
  assert (Hp : rpaths x e = [[e; x]; [e; x]]) by reflexivity.
  assert (Hd : exists d k', derivative e x 2%nat = Ok (d, k')).
  { rewrite derivative_eq by reflexivity. rewrite Hp.
      unfold path_sum, path_prod, bind, mk_const. cbn [foldM windows2 fst snd].
      unfold bind, ret.
      assert (Hpart : forall k, partial e x k = Ok (NDiv (S k) (NConst k (Some 1)) x, S (S k))).
      { intros k. unfold partial, e. rewrite ptr_eq_refl. unfold div_sn. cbn.
        destruct (Req_EM_T 1 0); [lra|]. reflexivity. }
      rewrite !Hpart.
      assert (Hone : forall i k (n : nodeX), is_constant n = false -> mul_nn (NConst i (n1 : X)) n k = Ok (n, k)).
      { intros i k n Hn. unfold mul_nn. cbn.
        assert (forall v, is_constant_with_value n v = false) as -> by (destruct n; try discriminate; auto).
        destruct (Req_EM_T 1 0); [lra|]. cbn. destruct (Req_EM_T 1 1); [reflexivity|lra]. }
      rewrite !Hone by reflexivity.
      assert (Hz : forall i k (n : nodeX), add_nn (NConst i (n0 : X)) n k = Ok (n, k)).
      { intros i k n. unfold add_nn. cbn. destruct (Req_EM_T 0 0); [reflexivity|lra]. }
      rewrite Hz, Hpart, Hone by reflexivity. unfold add_nn. cbn. destruct (Req_EM_T 0 0); [cbn; unfold mk_add; cbn; eexists; eexists; reflexivity|lra]. }
  destruct Hd as (d & k' & Hd).
  exists 2%nat, [x; e], e, x, d, k', vs, 1, (1 / 1), (Dv vs x e).
  split; [exact Hr|]. split; [cbn; auto|]. split; [exact Hd|]. split; [exact He|]. split; [exact Hx|].
  split; [|split].
  - apply derivative_ok in Hd as (_ & _ & k1 & k2 & P & _). eapply path_sum_Dv; eauto.
  - exists (mkposreal (1/2) ltac:(lra)), (fun _ => 1). split; [|apply derivable_pt_lim_const].
    cbn [pos]. intros t Ht. unfold e. cbn [evaluate]. rewrite evaluate_upd_same; auto.
    cbn. destruct (Req_EM_T t 0) as [->|Hne].
    + exfalso. replace (0 - 1) with (-1) in Ht by lra. rewrite Rabs_left in Ht; lra.
    + f_equal. field. auto.
  - rewrite !Dv_eq. cbn [is_var e x arguments map Rsum pv andb ptr_eq]. cbn [Nat.eqb]. 
    unfold rv. fold x. rewrite Hx. rewrite !Dv_eq. cbn. lra.
Qed.

(** ** C14 Derivative with respect to an absent variable *)
Theorem C14_absent_variable {T} `{Num T} `{HashOrd} (e v : node T) k :
  is_var v = true -> (forall w, occurs w e -> ptr_eq w v = false) ->
  exists i k', derivative e v k = Ok (NConst i n0, k').
Proof.
  intros Hv Hno. rewrite derivative_eq, rpaths_absent; auto. exists k, (S k). reflexivity.
Qed.

(** ** C15 Panics of differentiation *)
(** With respect to variables, the only panic possible is the assertion in the
    sum constructor; with respect to anything else the call panics. *)
Theorem C15_derivatives_panic {T} `{Num T} `{HashOrd} k pool (e : node T) vars p :
  reach any_op k pool -> In e pool -> forallb is_var vars = true ->
  derivatives e vars k = Panic p -> p = PAssert.
Proof.
  intros Hr He Hv E. destruct (reach_world false k pool Hr) as (S & HW & HS).
  rewrite Forall_forall in HS.
  apply (derivatives_panic false k S) in E; auto. destruct E as [[_ E]|[E _]]; congruence.
Qed.
Theorem C15_non_variable {T} `{Num T} `{HashOrd} (e v : node T) vars k :
  (is_var v = false -> derivative e v k = Panic PVarExpected) /\
  (forallb is_var vars = false -> derivatives e vars k = Panic PVarExpected).
Proof. split; [apply derivative_nonvar|apply derivatives_nonvar]. Qed.
(** Affine expressions: never a panic, and every derivative is a constant. *)
Theorem C15_affine_never_panics {T} `{Num T} `{HashOrd} k pool (e : node T) vars :
  reach affine_op k pool -> In e pool -> forallb is_var vars = true ->
  exists ds k', derivatives e vars k = Ok (ds, k') /\
                Forall (fun kv => is_constant (snd kv) = true) ds.
Proof.
  intros Hr He Hv. pose proof (reach_aff k pool Hr) as Ha. rewrite Forall_forall in Ha.
  destruct (reach_world false k pool) as (S & HW & HS).
  { eapply reach_weaken; [|exact Hr]. intros; exact I. }
  rewrite Forall_forall in HS.
  apply (derivatives_aff_total false k S); auto.
Qed.
(** [d/dx (5x + x*y - 5x)] aborts (binary64, whatever libm does). *)
Definition c15_prog : list (op F) :=
  [OVar "x" VarContinuous; OVar "y" VarContinuous; OMulSN (flit 5) 0; OMulNN 0 1;
   OAddNN 2 3; OMulSN (flit (-5)) 0; OAddNN 4 5]%string.
Theorem C15_derivative_never_panics_refuted (fsin fcos : F -> F) (HO : HashOrd) :
  exists k pool (e v : node F),
    @reach F (NumF fsin fcos) any_op k pool /\ In e pool /\ In v pool /\ is_var v = true /\
    @derivative F (NumF fsin fcos) HO e v k = Panic PAssert.
Proof.
  destruct (@run F (NumF fsin fcos) HO c15_prog 0%nat []) as [[k pool]|p] eqn:E; [|vm_compute in E; discriminate].
  exists k, pool, (nth 6 pool (NConst 0 S754_nan)), (nth 0 pool (NConst 0 S754_nan)).
  split; [eapply (@run_reach F (NumF fsin fcos) HO c15_prog 0%nat []); [constructor|exact E]|].
  vm_compute in E. inversion E; subst; clear E.
  split; [cbn; tauto|]. split; [cbn; tauto|]. split; [reflexivity|].
  rewrite derivative_eq by reflexivity. vm_compute. reflexivity.
Qed.

(** ** C16 [derivatives] and [derivative] agree *)
(** One entry per distinct variable requested and no other; each entry has the
    value that [derivative] would give for that variable, called at any moment
    and under any other hash order. *)
Theorem C16_derivatives_entries {T} `{Num T} (HO HO' : HashOrd) (e : node T) vars k ds k' :
  @derivatives T _ HO e vars k = Ok (ds, k') ->
  (forall v, In v (map fst ds) -> In v vars) /\
  NoDup (map nid (map fst ds)) /\
  forall v, In v vars ->
    exists d, hget ptr_eq v ds = Some d /\
      forall k1, exists d1 k2, @derivative T _ HO' e v k1 = Ok (d1, k2) /\
        forall vs, evaluate vs d = evaluate vs d1.
Proof.
  intros E. pose proof (derivatives_ok _ _ _ _ _ E) as (Hv & _ & K & G).
  rewrite forallb_forall in Hv.
  assert (Hincl : forall v, In v (map fst ds) -> In v vars).
  { intros v Hin. rewrite K in Hin. apply (Permutation_in _ (ord_perm _ _ _ _)) in Hin.
    apply sextend_incl in Hin as [[]|Hin]; auto. }
  split; [exact Hincl|]. split.
  - assert (Hn : nodupk ptr_eq (map fst ds)).
    { rewrite K. eapply pnodup_perm; [apply Permutation_sym, ord_perm|]. apply pnodup_sextend. exact I. }
    revert Hn Hincl. generalize (map fst ds) as l. induction l as [|a l IH]; cbn; [constructor|].
    intros [Ha Hl] Hi. constructor; [|apply IH; auto; intros x Hx; apply Hi; cbn; auto].
    intros Hin. apply in_map_iff in Hin as (b & Eb & Hb).
    assert (Va : is_var a = true) by (apply Hv, Hi; cbn; auto).
    assert (Vb : is_var b = true) by (apply Hv, Hi; cbn; auto).
    assert (Hab : ptr_eq a b = true).
    { destruct a, b; try discriminate. cbn in *. subst. apply Nat.eqb_refl. }
    assert (Hex : existsb (ptr_eq a) l = true) by (apply existsb_exists; eauto). congruence.
  - intros v Hin. destruct (G v (smem_in v vars Hin)) as (d & k1 & k2 & Hd & Ps & _).
    exists d. split; [exact Hd|]. intros kk. rewrite derivative_eq by auto.
    pose proof (path_sum_sim (rpaths v e) k1 kk) as Hs. rewrite Ps in Hs.
    destruct (path_sum (rpaths v e) kk) as [[d1 k3]|p]; [|contradiction].
    exists d1, k3. split; [reflexivity|]. intros vs. apply sim_evaluate; auto.
Qed.
(** [derivatives] returns exactly when [derivative] returns for every variable
    requested. *)
Theorem C16_derivatives_total {T} `{Num T} (HO HO' : HashOrd) (e : node T) vars k kv :
  (forall v, In v vars -> exists r, @derivative T _ HO' e v (kv v) = Ok r) ->
  exists r, @derivatives T _ HO e vars k = Ok r.
Proof.
  intros Hall.
  assert (Hv : forallb is_var vars = true).
  { apply forallb_forall. intros v Hin. destruct (is_var v) eqn:Ev; auto.
    destruct (Hall v Hin) as (r & E). rewrite derivative_nonvar in E by auto. discriminate. }
  rewrite derivatives_run by auto.
  assert (Hp : forall v, In v (@ord HO _ 2%nat k (sextend ptr_eq [] vars)) ->
               forall kk, exists d k2, path_sum (rpaths v e) kk = Ok (d, k2)).
  { intros v Hin kk. apply (Permutation_in _ (ord_perm _ _ _ _)) in Hin.
    apply sextend_incl in Hin as [[]|Hin]. rewrite forallb_forall in Hv.
    destruct (Hall v Hin) as ([d k2] & E). rewrite derivative_eq in E by auto.
    pose proof (path_sum_sim (rpaths v e) kk (kv v)) as Hs. rewrite E in Hs.
    destruct (path_sum (rpaths v e) kk) as [[d1 k3]|p]; [|contradiction]. eauto. }
  revert Hp. generalize (@ord HO _ 2%nat k (sextend ptr_eq [] vars)) as L, ([] : list (node T * node T)) as acc.
  clear. generalize k as kk. intros kk L; revert kk. induction L as [|v L IH]; intros kk acc Hp.
  - eexists; reflexivity.
  - cbn [foldM]. unfold bind at 1, bind at 1.
    destruct (Hp v (or_introl eq_refl) kk) as (d & k2 & ->). cbn [ret].
    apply IH. intros; apply Hp; cbn; auto.
Qed.

(** ** C18 Gradient components *)
Theorem C18_gradient `{HashOrd} k pool (e : nodeX) sc k' :
  reach any_op k pool -> In e pool -> no_self_division e ->
  std_components e k = Ok (sc, k') ->
  NoDup (map fst (sc_gphi sc)) /\
  (forall v, In v (map fst (sc_gphi sc)) <-> occurs v e) /\
  forall v d (vs : valsX) z, In (v, d) (sc_gphi sc) -> evaluate vs e = Some z ->
    exists l, evaluate vs d = Some l /\ has_partial e vs v l.
Proof.
  intros Hr He Hd E. destruct (reach_world false k pool Hr) as (S & HW & HS).
  rewrite Forall_forall in HS. eapply (gphi_correct k (fun x => sub x e)); [|constructor|exact E].
  eapply world_restrict; eauto.
Qed.

(** ** C19 Hessian components *)
Theorem C19_hessian `{HashOrd} k pool (e : nodeX) sc k' :
  reach any_op k pool -> In e pool -> no_self_division e ->
  std_components e k = Ok (sc, k') ->
  (* at most one entry per unordered pair *)
  NoDup (map fst (sc_hphi sc)) /\
  (forall v1 v2, In (v1, v2) (map fst (sc_hphi sc)) -> In (v2, v1) (map fst (sc_hphi sc)) -> v1 = v2) /\
  (* every entry is the second partial, in both orders of differentiation *)
  (forall v1 v2 dd (vs : valsX) z, In (v1, v2, dd) (sc_hphi sc) -> evaluate vs e = Some z ->
     occurs v1 e /\ occurs v2 e /\
     exists l, evaluate vs dd = Some l /\ has_second_partial e vs v1 v2 l /\
               has_second_partial e vs v2 v1 l) /\
  (* an unlisted pair has second partial zero *)
  (forall v1 v2 (vs : valsX) x1 x2 z,
     is_var v1 = true -> is_var v2 = true ->
     evaluate vs v1 = Some x1 -> evaluate vs v2 = Some x2 -> evaluate vs e = Some z ->
     ~ In (v1, v2) (map fst (sc_hphi sc)) -> ~ In (v2, v1) (map fst (sc_hphi sc)) ->
     (occurs v1 e /\ occurs v2 e) \/
     (forall w, occurs w e -> ptr_eq w v1 = false) \/ (forall w, occurs w e -> ptr_eq w v2 = false) ->
     has_second_partial e vs v1 v2 0).
Proof.
  intros Hr He Hd E. destruct (reach_world false k pool Hr) as (S & HW & HS).
  rewrite Forall_forall in HS.
  assert (HW' : world true k (fun x => sub x e)) by (eapply world_restrict; eauto).
  assert (Hse : sub e e) by constructor.
  destruct (hphi_correct k (fun x => sub x e) e sc k' HW' Hse E) as (H1 & H2 & H3 & H4).
  split; [exact H1|]. split; [exact H2|]. split; [exact H3|].
  intros v1 v2 vs x1 x2 z V1 V2 Y1 Y2 Hz N1 N2 [[O1 O2]|Hno].
  - exact (H4 v1 v2 vs x1 x2 z V1 V2 Y1 Y2 Hz N1 N2 O1 O2).
  - exact (second_partial_absent k (fun x => sub x e) e v1 v2 vs x1 x2 z HW' Hse V1 V2 Y1 Y2 Hz Hno).
Qed.

(** The components of an expression are computed unless a sum assertion fails,
    which cannot happen for an affine expression. *)
Theorem C18_components_panic {T} `{Num T} `{HashOrd} k pool (e : node T) p :
  reach any_op k pool -> In e pool -> std_components e k = Panic p ->
  p = PAssert /\ p_affine (std_properties e) = false.
Proof.
  intros Hr He E. destruct (reach_world false k pool Hr) as (S & HW & HS).
  rewrite Forall_forall in HS. eapply (std_components_panic false k S); eauto.
Qed.

(** ** The hypotheses are met *)
(** [x * y] in exact arithmetic: the history exists, the expression has a
    value, it contains no self-quotient, and derivative and components return. *)
Definition cx : nodeX := NVar 0 "x"%string VarContinuous.
Definition cy : nodeX := NVar 1 "y"%string VarContinuous.
Definition cm : nodeX := NMul 2 cx cy.
Definition cvs : valsX := [(cx, Some 1); (cy, Some 2)].

Lemma ex_add0 i k (n : nodeX) : add_nn (NConst i (n0 : X)) n k = Ok (n, k).
Proof. unfold add_nn. cbn. destruct (Req_EM_T 0 0); [reflexivity|lra]. Qed.
Lemma ex_mul1 i k (n : nodeX) : is_constant n = false -> mul_nn (NConst i (n1 : X)) n k = Ok (n, k).
Proof.
  intros Hn. unfold mul_nn. cbn.
  assert (forall v, is_constant_with_value n v = false) as -> by (destruct n; try discriminate; auto).
  destruct (Req_EM_T 1 0); [lra|]. cbn. destruct (Req_EM_T 1 1); [reflexivity|lra].
Qed.
Lemma ex_p1 k (v : nodeX) : path_sum [[v]] k = Ok (NConst (S k) n1, S (S k)).
Proof.
  unfold path_sum, path_prod, bind, mk_const. cbn [foldM windows2]. unfold ret, bind.
  rewrite ex_add0. reflexivity.
Qed.
Lemma ex_p2 k : path_sum [[cm; cx]] k = Ok (cy, S (S k)).
Proof.
  unfold path_sum, path_prod, bind, mk_const. cbn [foldM windows2]. unfold ret, bind. cbn [fst snd].
  change (partial cm cx (S (S k))) with (Ok (cy, S (S k))). cbv beta iota. rewrite ex_mul1 by reflexivity. rewrite ex_add0. reflexivity.
Qed.
Lemma ex_p3 k : path_sum [[cm; cy]] k = Ok (cx, S (S k)).
Proof.
  unfold path_sum, path_prod, bind, mk_const. cbn [foldM windows2]. unfold ret, bind. cbn [fst snd].
  change (partial cm cy (S (S k))) with (Ok (cx, S (S k))). cbv beta iota. rewrite ex_mul1 by reflexivity. rewrite ex_add0. reflexivity.
Qed.
Lemma ex_reach (HO : HashOrd) : reach any_op 3 [cx; cy; cm].
Proof.
  apply (reach_step any_op 2%nat [cx; cy] (OMulNN 0 1)); [|exact I|reflexivity].
  apply (reach_step any_op 1%nat [cx] (OVar "y"%string VarContinuous)); [|exact I|reflexivity].
  apply (reach_step any_op 0%nat [] (OVar "x"%string VarContinuous)); [constructor|exact I|reflexivity].
Qed.
Lemma ex_nodiv : no_self_division cm.
Proof.
  intros i a b Hs. exfalso.
  inversion Hs as [|s c n Hc Hs2]; subst. cbn in Hc.
  destruct Hc as [<-|[<-|[]]]; inversion Hs2 as [|s c n Hc Hs3]; subst; destruct Hc.
Qed.
Example C13_example (HO : HashOrd) :
  reach any_op 3 [cx; cy; cm] /\ no_self_division cm /\
  derivative cm cx 3%nat = Ok (cy, 5%nat) /\
  evaluate cvs cm = Some (1 * 2) /\ evaluate cvs cx = Some 1.
Proof.
  split; [apply (ex_reach HO)|]. split; [apply ex_nodiv|].
  split; [rewrite derivative_eq by reflexivity; apply (ex_p2 3%nat)|]. split; reflexivity.
Qed.
(** The components of [x * y]: two gradient entries and one Hessian entry. *)
Example C18_C19_example : exists c k',
  @std_components X _ ord_id cm 3%nat =
  Ok (mk_std_comp cm [(cx, cy); (cy, cx)] [(cx, cy, c)] (std_properties cm), k') /\
  evaluate cvs c = Some 1.
Proof.
  assert (run : forall A B (m : M A) (f : A -> M B) k a k', m k = Ok (a, k') -> bind m f k = f a k').
  { intros A B m f k a k' E. unfold bind. rewrite E. reflexivity. }
  assert (D1 : @derivatives X _ ord_id cm [cx; cy] 3%nat = Ok ([(cx, cy); (cy, cx)], 7%nat)).
  { rewrite derivatives_run by reflexivity.
    change (@ord ord_id _ 2%nat 3%nat (sextend ptr_eq [] [cx; cy])) with [cx; cy]. cbn [foldM].
    change (rpaths cx cm) with [[cm; cx]]. change (rpaths cy cm) with [[cm; cy]].
    erewrite run; [|erewrite run; [|apply (ex_p2 3%nat)]; reflexivity].
    erewrite run; [|erewrite run; [|apply (ex_p3 5%nat)]; reflexivity]. reflexivity. }
  assert (D2 : @derivatives X _ ord_id cy [cx; cy] 7%nat = Ok ([(cx, NConst 7 n0); (cy, NConst 9 n1)], 10%nat)).
  { rewrite derivatives_run by reflexivity.
    change (@ord ord_id _ 2%nat 7%nat (sextend ptr_eq [] [cx; cy])) with [cx; cy]. cbn [foldM].
    change (rpaths cx cy) with ([] : list (list nodeX)). change (rpaths cy cy) with [[cy]].
    erewrite run; [|erewrite run; [|reflexivity]; reflexivity].
    erewrite run; [|erewrite run; [|apply (ex_p1 8%nat)]; reflexivity]. reflexivity. }
  assert (D3 : @derivatives X _ ord_id cx [cy] 10%nat = Ok ([(cy, NConst 10 n0)], 11%nat)).
  { rewrite derivatives_run by reflexivity.
    change (@ord ord_id _ 2%nat 10%nat (sextend ptr_eq [] [cy])) with [cy]. cbn [foldM].
    change (rpaths cy cx) with ([] : list (list nodeX)).
    erewrite run; [|erewrite run; [|reflexivity]; reflexivity]. reflexivity. }
  exists (NConst 9 n1), 11%nat. split; [|reflexivity].
  unfold std_components. erewrite run; [|reflexivity].
  change (p_affine (std_properties cm)) with false. cbv iota.
  change (map fst (@ord ord_id _ 3%nat 3%nat (p_a (std_properties cm)))) with [cx; cy].
  erewrite run; [|exact D1].
  rewrite (run _ _ _ _ _ ([(cx, cy); (cy, cx)], [(cx, cy, NConst 9 n1)]) 11%nat); [reflexivity|].
  cbn [grad_hess].
  erewrite run; [|reflexivity]. erewrite run; [|exact D2].
  assert (H0 : is_constant_with_value (NConst 7 (n0 : X)) n0 = true).
  { cbn. destruct (Req_EM_T 0 0); [reflexivity|lra]. }
  assert (H1 : is_constant_with_value (NConst 9 (n1 : X)) n0 = false).
  { cbn. destruct (Req_EM_T 1 0); [lra|reflexivity]. }
  assert (H2 : is_constant_with_value (NConst 10 (n0 : X)) n0 = true).
  { cbn. destruct (Req_EM_T 0 0); [reflexivity|lra]. }
  erewrite run.
  2:{ unfold lift. cbn [hess_entries].
      change (hget ptr_eq cx [(cx, NConst 7 (n0 : X)); (cy, NConst 9 n1)]) with (Some (NConst 7 (n0 : X))).
      change (hget ptr_eq cy [(cx, NConst 7 (n0 : X)); (cy, NConst 9 n1)]) with (Some (NConst 9 (n1 : X))).
      cbn [unwrap rbind]. rewrite H0, H1. reflexivity. }
  erewrite run.
  2:{ erewrite run; [|reflexivity]. erewrite run; [|exact D3]. erewrite run.
      2:{ unfold lift. cbn [hess_entries].
          change (hget ptr_eq cy [(cy, NConst 10 (n0 : X))]) with (Some (NConst 10 (n0 : X))).
          cbn [unwrap rbind]. rewrite H2. reflexivity. }
      reflexivity. }
  reflexivity.
Qed.
