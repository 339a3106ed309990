(** Properties C20-C23: constraints and their standard form. *)
From Verif Require Import Base Num Node NodeInd NodeDiff NodeStd Constraint Matrix Problem ModelStd Model
     ExprSpec World MapProofs StdPropProofs EvalProofs GradProofs PanicProofs ConstrProofs PartsProofs ConstrSpec ConstrEquiv
     MatSpec MatrixProofs ProblemProofs BuildProofs BuildMain ModelSpec PointProofs SlotProofs ConstrPanic
     Api ApiProofs ModelApi StdMain HistProofs ModelExample Properties_Diff.
From Coq Require Import Reals Lra Floats.SpecFloat.

(** ** C20 Violation *)
Theorem C20_violation (c : constraint X) (vs : valsX) a b :
  evaluate vs (clhs c) = Some a -> evaluate vs (crhs c) = Some b ->
  exists r, violation vs c = Some r /\ (0 <= r)%R /\
            (r = 0%R <-> rel (ckd c) a b) /\ (~ rel (ckd c) a b -> r = Rabs (a - b)).
Proof.
  intros Ha Hb. unfold violation. rewrite Ha, Hb.
  destruct (ckd c); cbn [rel nabs nsub nmax n0 nlit NumX x2 x1 xmax].
  - exists (Rabs (a - b)). split; [reflexivity|]. split; [apply Rabs_pos|]. split; [|auto].
    split; [|intros ->; rewrite Rminus_diag_eq by reflexivity; apply Rabs_R0].
    intros E. destruct (Req_dec a b) as [|N]; auto. exfalso. apply (Rabs_no_R0 (a - b)); [lra|exact E].
  - exists (Rmax 0 (a - b)). split; [reflexivity|]. split; [apply Rmax_l|].
    unfold Rmax. destruct (Rle_dec 0 (a - b)); (split; [split; lra|]); intros N; [|lra].
    symmetry. apply Rabs_right. lra.
  - exists (Rmax 0 (b - a)). split; [reflexivity|]. split; [apply Rmax_l|].
    unfold Rmax. destruct (Rle_dec 0 (b - a)); (split; [split; lra|]); intros N; [|lra].
    rewrite Rabs_minus_sym. symmetry. apply Rabs_right. lra.
Qed.
(** With a side that has no value (a missing variable), an equality has no
    violation value, but an inequality reports that it is not violated. *)
Theorem C20_undefined_side (c : constraint X) (vs : valsX) :
  evaluate vs (clhs c) = None \/ evaluate vs (crhs c) = None ->
  violation vs c = match ckd c with Equal => None | _ => Some 0%R end.
Proof.
  intros Hu. unfold violation.
  destruct (ckd c), (evaluate vs (clhs c)), (evaluate vs (crhs c)); cbn; try reflexivity;
    destruct Hu; discriminate.
Qed.
(** The same in binary64: [x.leq(1.)] with no value for [x] is "satisfied". *)
Theorem C20_missing_variable_refuted (fsin fcos : F -> F) (HO : HashOrd) :
  exists st (c : constraint F),
    @hist F (NumF fsin fcos) any_op st /\ In c (st_cons st) /\ ckd c = LessEqual /\
    @evaluate F (NumF fsin fcos) [] (clhs c) = S754_nan /\
    @violation F (NumF fsin fcos) [] c = S754_zero false.
Proof.
  exists (mk_mstate 3 [NVar 0 "x"%string VarContinuous]
                    [mk_constraint 2 (NVar 0 "x"%string VarContinuous) LessEqual (NConst 1 (flit 1)) ""%string] []).
  eexists. split; [|split; [left; reflexivity|split; [reflexivity|split; vm_compute; reflexivity]]].
  apply (@mrun_hist F (NumF fsin fcos) HO [CExpr (OVar "x"%string VarContinuous); CCmpNS 0 LessEqual (flit 1) ""%string] mstart);
    [constructor|reflexivity].
Qed.

Section Hist.
  Context `{HashOrd}.
  Lemma cons_world nsq (st : mstate X) S c : hinv nsq st S -> In c (st_cons st) -> S (clhs c) /\ S (crhs c).
  Proof.
    intros Hi Hc. pose proof (hi_cons _ _ _ Hi) as G. rewrite Forall_forall in G. destruct (G c Hc) as (?&?&?); auto.
  Qed.
End Hist.

(** ** C21 Standard form of one constraint *)
(** After any history, for any constraint made in it: a valuation satisfies the
    constraint iff, changing only variables that did not exist before the call
    (the slack), it can be made to satisfy the standard components. *)
Theorem C21_equivalent `{HashOrd} (st : mstate X) (c : constraint X) arow jrow cs arow' jrow' k' (vs : valsX) :
  hist any_op st -> In c (st_cons st) ->
  constr_std c arow jrow (st_k st) = Ok ((cs, arow', jrow'), k') ->
  (holds vs c <-> exists vs', same_before (st_k st) vs vs' /\ std_holds arow vs' cs).
Proof.
  intros Hh Hc E. destruct (hist_inv false st Hh) as (S & Hi).
  destruct (cons_world _ _ _ _ Hi Hc) as [Sl Sr]. pose proof (hi_world _ _ _ Hi) as HW.
  split.
  - intros Hv. destruct (constr_std_complete false _ S vs c arow jrow cs arow' jrow' k' HW Sl Sr E Hv) as (vs' & A & B & _).
    eauto.
  - intros (vs' & A & B). apply (same_before_holds false (st_k st) S vs' vs c HW Sl Sr (same_before_sym _ _ _ A)).
    exact (constr_std_sound false _ S vs' c arow jrow cs arow' jrow' k' HW Sl Sr E B).
Qed.
(** The slack carries the difference of the two sides. *)
Theorem C21_slack_value `{HashOrd} (st : mstate X) (c : constraint X) arow jrow cs arow' jrow' k' (vs : valsX) :
  hist any_op st -> In c (st_cons st) ->
  constr_std c arow jrow (st_k st) = Ok ((cs, arow', jrow'), k') -> holds vs c ->
  exists vs', same_before (st_k st) vs vs' /\ std_holds arow vs' cs /\
    forall e v cf, In e (cs_prop cs) -> In (v, cf) (p_a e) -> (st_k st <= nid v)%nat ->
                   evaluate vs' v = diff vs c.
Proof.
  intros Hh Hc E Hv. destruct (hist_inv false st Hh) as (S & Hi).
  destruct (cons_world _ _ _ _ Hi Hc) as [Sl Sr]. pose proof (hi_world _ _ _ Hi) as HW.
  destruct (constr_std_complete false _ S vs c arow jrow cs arow' jrow' k' HW Sl Sr E Hv) as (vs' & A & B & C).
  exists vs'. split; [exact A|]. split; [exact B|]. intros e v cf He Hin Hk. apply C; [|exact Hk].
  unfold prop_keys. apply in_concat. exists (map fst (p_a e)). split; [apply in_map_iff; eauto|].
  apply in_map_iff. exists (v, cf). auto.
Qed.

(** ** C22 When standardising a constraint panics *)
Theorem C22_panics_iff {T} `{Num T} `{HashOrd} (st : mstate T) (c : constraint T) arow jrow p :
  hist any_op st -> In c (st_cons st) -> neqb (@nm1 T _) n0 = false ->
  (constr_std c arow jrow (st_k st) = Panic p <->
   p = PAssert /\
   (sub_nn (clhs c) (crhs c) (st_k st) = Panic PAssert \/
    exists e k1, sub_nn (clhs c) (crhs c) (st_k st) = Ok (e, k1) /\ p_affine (std_properties e) = false /\
                 std_components e k1 = Panic PAssert)).
Proof.
  intros Hh Hc Hm. destruct (hist_inv false st Hh) as (S & Hi).
  assert (HS : S (clhs c) /\ S (crhs c)).
  { pose proof (hi_cons _ _ _ Hi) as G. rewrite Forall_forall in G. destruct (G c Hc) as (?&?&?); auto. }
  destruct HS as [Sl Sr]. pose proof (hi_world _ _ _ Hi) as HW. split.
  - intros E. pose proof (constr_std_assert false _ S c arow jrow p Hm HW Sl Sr E) as ->. split; [reflexivity|].
    apply (constr_std_panic false _ S c arow jrow PAssert Hm HW Sl Sr) in E as [E|(e & k1 & E1 & E)]; [auto|right].
    destruct (sub_nn_grows false _ S _ _ HW Sl Sr _ _ E1) as (_ & S1 & _ & W1 & Se).
    destruct (std_components_panic false k1 S1 e _ W1 Se E) as (_ & Ha). exists e, k1. auto.
  - intros (-> & E). apply (constr_std_panic false _ S c arow jrow PAssert Hm HW Sl Sr).
    destruct E as [E|(e & k1 & E1 & _ & E)]; [left; exact E|right; exists e, k1; auto].
Qed.
(** In particular linear constraints panic only when the subtraction does. *)
Theorem C22_affine_total {T} `{Num T} `{HashOrd} (st : mstate T) (c : constraint T) arow jrow e k1 :
  hist any_op st -> In c (st_cons st) -> neqb (@nm1 T _) n0 = false ->
  sub_nn (clhs c) (crhs c) (st_k st) = Ok (e, k1) -> p_affine (std_properties e) = true ->
  exists r k', constr_std c arow jrow (st_k st) = Ok (r, k').
Proof.
  intros Hh Hc Hm E Ha. destruct (constr_std c arow jrow (st_k st)) as [[r k']|p] eqn:Ec; [eauto|exfalso].
  apply (C22_panics_iff st c arow jrow p Hh Hc Hm) in Ec as (_ & [Ec|(e' & k1' & E1 & Ha' & _)]); congruence.
Qed.
(** The English claim is false: [(x + 5.).leq(5.)] aborts [std_components] and
    any [solve] of a model that contains it. *)
Definition c22_prog : list (call F) :=
  [CExpr (OVar "x"%string VarContinuous); CExpr (OAddNS 0 (flit 5)); CCmpNS 1 LessEqual (flit 5) ""%string;
   CNewModel; CAddConstr 0 0].
Theorem C22_never_panics_refuted (fsin fcos : F -> F) (HO : HashOrd) :
  exists st (c : constraint F) (m : model F),
    @hist F (NumF fsin fcos) any_op st /\ In c (st_cons st) /\ In m (st_models st) /\
    @constr_std F (NumF fsin fcos) HO c 0 0 (st_k st) = Panic PAssert /\
    forall solver, snd (fst (@solve F (NumF fsin fcos) HO solver m (st_k st))) = Unwound PAssert.
Proof.
  destruct (@mrun F (NumF fsin fcos) HO c22_prog mstart) as [st|] eqn:E; [|vm_compute in E; discriminate].
  exists st, (nth 0 (st_cons st) (mk_constraint 0 (NConst 0 (flit 0)) Equal (NConst 0 (flit 0)) ""%string)), (nth 0 (st_models st) model_new).
  split; [eapply (@mrun_hist F (NumF fsin fcos) HO c22_prog mstart); [constructor|exact E]|].
  vm_compute in E. inversion E; subst; clear E.
  split; [left; reflexivity|]. split; [left; reflexivity|].
  cbn [nth st_cons st_models st_k].
  match goal with |- constr_std ?c0 _ _ _ = _ /\ _ => set (c := c0) end.
  assert (Ec : forall k, @constr_std F (NumF fsin fcos) HO c 0 0 k = Panic PAssert).
  { intros k. unfold constr_std. apply bind_panic. left. vm_compute. reflexivity. }
  split; [apply Ec|]. intros solver. unfold solve, reset. cbn [md_objective md_constraints md_init].
  match goal with |- context [std_problem ?m ?k] =>
    assert (Es : @std_problem F (NumF fsin fcos) HO m k = Panic PAssert) end; [|rewrite Es; reflexivity].
  unfold std_problem. apply bind_panic. left. unfold model_std. apply bind_panic. right. cbn [md_objective md_constraints].
  destruct (@obj_std F (NumF fsin fcos) HO EmptyObj 6) as [[o k1]|p] eqn:Eo.
  - exists o, k1. split; [exact Eo|]. apply bind_panic. left. unfold constrs_std. cbn [foldM].
    apply bind_panic. left. apply bind_panic. left. apply Ec.
  - exfalso. unfold obj_std in Eo. apply bind_panic in Eo as [Eo|(x & k1 & Ex & Eo)]; [discriminate|].
    inversion Ex; subst. unfold std_components in Eo. apply bind_panic in Eo as [Eo|(t & k2 & Et & Eo)]; [discriminate|].
    cbn [std_properties p_affine p_a] in Eo.
    rewrite (Permutation_nil (Permutation_sym (ord_perm (node F * F) 3 t []))) in Eo. discriminate.
Qed.

(** ** C23 Row bookkeeping *)
Section Slots.
  Context `{HashOrd}.

  Lemma enum_hget {A} (l : list A) r : hget Nat.eqb r (enum l) = nth_error l r.
  Proof.
    unfold enum. assert (G : forall n i, hget Nat.eqb (n + i) (combine (seq n (length l)) l) = nth_error l i).
    { induction l as [|a l IH]; intros n i; cbn [length seq combine hget]; [destruct i; reflexivity|].
      destruct i as [|i]; cbn [nth_error].
      - rewrite Nat.add_0_r, Nat.eqb_refl. reflexivity.
      - destruct (Nat.eqb_spec (n + S i) n); [lia|]. replace (n + S i) with (S n + i) by lia. apply IH. }
    apply (G 0).
  Qed.

  (** The problem's row [r] applied to a point is the row of the components
      applied to the valuation of the point. *)
  Lemma ax_row_lin nsq k S m k' S' eo ke (obj : std_comp X) ko ps ar jr r (x : list X) :
    std_run nsq k S m k' S' eo ke obj ko ps ar jr ->
    ax_row (p_problem k' (md_init m) obj (cat ps)) r x =
    lin (point_vals (problem_vars k' obj (cat ps)) x) (lrow r (cs_a (cat ps))).
  Proof.
    intros R. unfold ax_row. destruct (base_shape k' (md_init m) obj (cat ps)) as (-> & _).
    rewrite row_of_amat. apply row_dot_lin.
    - eapply run_vars_nodup; eauto.
    - apply Forall_forall. intros v Hv. apply (run_vars_world _ _ _ _ _ _ _ _ _ _ _ _ _ v R Hv).
    - apply Forall_forall. intros kv Hkv. unfold lrow in Hkv.
      apply in_map_iff in Hkv as (e & <- & He). apply filter_In in He as [He _]. cbn [fst].
      apply (run_vars_in _ _ _ _ _ _ _ _ _ _ _ _ _ _ R). right.
      pose proof (pi_a _ _ (sr_in _ _ _ _ _ _ _ _ _ _ _ _ _ R)) as G. rewrite Forall_forall in G. auto.
  Qed.
End Slots.

(** Every constraint of the model has exactly one place: a variable bound, a
    linear row or a nonlinear function; the row numbers and the function
    numbers are 0, 1, 2, ... in the order of the constraints; each place states
    the constraint: left minus right side (minus the slack); see [placed] and
    [slot_ok] in ModelSpec.v. *)
Theorem placed_all `{HashOrd} (st : mstate X) (m : model X) sp k' :
  hist any_op st -> In m (st_models st) -> std_problem m (st_k st) = Ok (sp, k') ->
  exists obj cs slots,
    model_std m (st_k st) = Ok ((obj, cs), k') /\ placed (st_k st) m cs sp slots /\
    forall v, In v (prop_keys cs) <->
       (exists c, In c (md_constraints m) /\ (occurs v (clhs c) \/ occurs v (crhs c))) \/ In v (flat_map slack_of slots).
Proof.
  intros Hh Hm E. destruct (hist_inv false st Hh) as (S & Hi).
  pose proof (hi_models _ _ _ Hi) as G. rewrite Forall_forall in G. destruct (G m Hm) as (Mi & _ & _).
  pose proof (hi_world _ _ _ Hi) as HW.
  destruct (std_problem_run false _ S m sp k' HW Mi E) as (obj & S' & eo & ke & ko & ps & ar & jr & uc & lc & Em & R & Esp & _).
  destruct (sr_w2 _ _ _ _ _ _ _ _ _ _ _ _ _ R) as (S2 & I2 & _ & W2 & _).
  pose proof (sr_le _ _ _ _ _ _ _ _ _ _ _ _ _ R) as Hle.
  assert (Hc : Forall (fun c => S2 (clhs c) /\ S2 (crhs c)) (md_constraints m)).
  { eapply Forall_impl; [|apply mi_cons with (1 := Mi)]. intros c []; auto. }
  destruct (parts_slots false S2 _ 0 0 ko ps ar jr k' W2 Hc (sr_parts _ _ _ _ _ _ _ _ _ _ _ _ _ R))
    as (slots & HF & Hr & Hf & (Hu & Hl) & Hk & Hnd & _).
  destruct (sr_rows _ _ _ _ _ _ _ _ _ _ _ _ _ R) as [R1 R2 R3 R4 R5 R6 R7].
  destruct (base_shape k' (md_init m) obj (cat ps)) as (_ & Eb & _ & _ & _ & _ & En).
  exists obj, (cat ps), slots. split; [exact Em|]. split; [|exact Hk]. subst sp.
  assert (Le : forall A (l : list A), length (enum l) = length l).
  { intros A l. unfold enum. rewrite combine_length, seq_length. lia. }
  constructor; cbn [sp_prob sp_acons sp_jcons]; rewrite ?Eb, ?Le; auto.
  - revert HF. clear -Hle R Eb En. intros HF. induction HF as [|c s cs slots Hs HF IH]; constructor; auto.
    destruct s as [v b|r sl|r sl]; cbn [slot_std slot_ok] in *; [exact Hs| |].
    + destruct Hs as (_ & H1 & H2 & b & H3 & H4). rewrite Nat.sub_0_r in *. cbn [sp_acons sp_prob].
      split; [rewrite enum_hget; exact H1|]. split.
      * destruct sl; cbn [slack_ok] in *; [|exact H2]. destruct H2 as (? & ? & ?). split; [lia|]. auto.
      * exists b. split; [rewrite Eb; exact H3|]. intros x Hx.
        rewrite (ax_row_lin _ _ _ _ _ _ _ _ _ _ _ _ _ r x R). apply H4.
    + destruct Hs as (_ & H1 & H2 & f & H3 & H4). rewrite Nat.sub_0_r in *. cbn [sp_jcons].
      split; [rewrite enum_hget; exact H1|]. split.
      * destruct sl; cbn [slack_ok] in *; [|exact H2]. destruct H2 as (? & ? & ?). split; [lia|]. auto.
      * exists f. split; [exact H3|]. exact H4.
  - rewrite Hr. f_equal. lia.
  - rewrite Hf. f_equal. lia.
Qed.
Theorem C23_rows `{HashOrd} (st : mstate X) (m : model X) sp k' :
  hist any_op st -> In m (st_models st) -> std_problem m (st_k st) = Ok (sp, k') ->
  exists obj cs slots,
    model_std m (st_k st) = Ok ((obj, cs), k') /\ placed (st_k st) m cs sp slots.
Proof.
  intros Hh Hm E. destruct (placed_all st m sp k' Hh Hm E) as (obj & cs & slots & A & B & _). eauto.
Qed.

(** ** The hypotheses are met (see ModelExample.v) *)
Example C21_C22_example : @hist X _ any_op est /\ In ec3 (st_cons est) /\
  (exists r k', @constr_std X _ ord_id ec3 0 0 (st_k est) = Ok (r, k')) /\
  holds [(cx, Some 3%R); (cy, Some 0%R)] ec3.
Proof.
  split; [exact ex_hist|]. split; [cbn; auto|]. split.
  - destruct (hist_inv false est ex_hist) as (S & Hi).
    destruct (cons_world _ _ _ ec3 Hi) as [Sl Sr]; [cbn; auto|].
    eapply ex_c3; eauto. apply (hi_world _ _ _ Hi).
  - exists (3 * 0)%R, 0%R. repeat split. cbn. lra.
Qed.
Example C23_example : exists sp k', @hist X _ any_op est /\ In em (st_models est) /\
  @std_problem X _ ord_id em (st_k est) = Ok (sp, k').
Proof.
  destruct ex_std as (obj & cs & k' & E). destruct (hist_inv false est ex_hist) as (S & Hi).
  pose proof (hi_models _ _ _ Hi) as G. inversion G as [|? ? (Mi & _) _]; subst.
  destruct (@std_problem_ok X _ ord_id false 10 S em obj cs k' (hi_world _ _ _ Hi) Mi E) as (uc & lc & Esp & _).
  eexists. exists k'. split; [exact ex_hist|]. split; [cbn; auto|]. exact Esp.
Qed.
