(** A concrete model in exact arithmetic, used to show that the hypotheses of
    the model-level theorems are met:

      minimise x*y   subject to   x >= 1,   x + y == 3,   x*y <= 0

    a variable bound, a linear row, a nonlinear row with a slack, and a
    nonlinear objective. *)
From Verif Require Import Base Num Node NodeInd NodeDiff NodeStd Constraint Matrix Problem ModelStd Model
     ExprSpec World MapProofs PathProofs StdPropProofs EvalProofs DerivProofs GradProofs PanicProofs ConstrProofs PartsProofs ConstrPanic
     ConstrSpec ModelSpec SlotProofs Api ApiProofs ModelApi StdMain HistProofs ExprExtra Properties_Diff.
From Coq Require Import Reals Lra.

Lemma xeqb_t (a b : R) : a = b -> xeqb (Some a) (Some b) = true.
Proof. intros E. cbn. destruct (Req_EM_T a b); congruence. Qed.
Lemma xeqb_f (a b : R) : a <> b -> xeqb (Some a) (Some b) = false.
Proof. intros E. cbn. destruct (Req_EM_T a b); congruence. Qed.

Lemma run_step A B (m : M A) (f : A -> M B) k a k' : m k = Ok (a, k') -> bind m f k = f a k'.
Proof. intros E. unfold bind. rewrite E. reflexivity. Qed.

(** The components of [x * y], at any moment. *)
Lemma ex_components k : exists c k',
  @std_components X _ ord_id cm k =
  Ok (mk_std_comp cm [(cx, cy); (cy, cx)] [(cx, cy, c)] (std_properties cm), k') /\
  c = NConst (S (S (S (S (S (S k)))))) n1.
Proof.
  pose proof run_step as run.
  set (k1 := S (S (S (S k)))).
  assert (D1 : @derivatives X _ ord_id cm [cx; cy] k = Ok ([(cx, cy); (cy, cx)], k1)).
  { rewrite derivatives_run by reflexivity.
    change (@ord ord_id _ 2%nat k (sextend ptr_eq [] [cx; cy])) with [cx; cy]. cbn [foldM].
    change (rpaths cx cm) with [[cm; cx]]. change (rpaths cy cm) with [[cm; cy]].
    erewrite run; [|erewrite run; [|apply (ex_p2 k)]; reflexivity].
    erewrite run; [|erewrite run; [|apply (ex_p3 (S (S k)))]; reflexivity]. reflexivity. }
  set (k2 := S (S (S k1))).
  assert (D2 : @derivatives X _ ord_id cy [cx; cy] k1 = Ok ([(cx, NConst k1 n0); (cy, NConst (S (S k1)) n1)], k2)).
  { rewrite derivatives_run by reflexivity.
    change (@ord ord_id _ 2%nat k1 (sextend ptr_eq [] [cx; cy])) with [cx; cy]. cbn [foldM].
    change (rpaths cx cy) with ([] : list (list nodeX)). change (rpaths cy cy) with [[cy]].
    erewrite run; [|erewrite run; [|reflexivity]; reflexivity].
    erewrite run; [|erewrite run; [|apply (ex_p1 (S k1))]; reflexivity]. reflexivity. }
  assert (D3 : @derivatives X _ ord_id cx [cy] k2 = Ok ([(cy, NConst k2 n0)], S k2)).
  { rewrite derivatives_run by reflexivity.
    change (@ord ord_id _ 2%nat k2 (sextend ptr_eq [] [cy])) with [cy]. cbn [foldM].
    change (rpaths cy cx) with ([] : list (list nodeX)).
    erewrite run; [|erewrite run; [|reflexivity]; reflexivity]. reflexivity. }
  exists (NConst (S (S k1)) n1), (S k2). split; [|reflexivity].
  unfold std_components. erewrite run; [|reflexivity].
  change (p_affine (std_properties cm)) with false. cbv iota.
  change (map fst (@ord ord_id _ 3%nat k (p_a (std_properties cm)))) with [cx; cy].
  erewrite run; [|exact D1].
  rewrite (run _ _ _ _ _ ([(cx, cy); (cy, cx)], [(cx, cy, NConst (S (S k1)) n1)]) (S k2)); [reflexivity|].
  cbn [grad_hess].
  erewrite run; [|reflexivity]. erewrite run; [|exact D2].
  assert (H0 : forall i, is_constant_with_value (NConst i (n0 : X)) n0 = true) by (intros; apply xeqb_t; auto).
  assert (H1 : forall i, is_constant_with_value (NConst i (n1 : X)) n0 = false) by (intros; apply xeqb_f; lra).
  erewrite run.
  2:{ unfold lift. cbn [hess_entries].
      change (hget ptr_eq cx [(cx, NConst k1 (n0 : X)); (cy, NConst (S (S k1)) n1)]) with (Some (NConst k1 (n0 : X))).
      change (hget ptr_eq cy [(cx, NConst k1 (n0 : X)); (cy, NConst (S (S k1)) n1)]) with (Some (NConst (S (S k1)) (n1 : X))).
      cbn [unwrap rbind]. rewrite H0, H1. reflexivity. }
  erewrite run.
  2:{ erewrite run; [|reflexivity]. erewrite run; [|exact D3]. erewrite run.
      2:{ unfold lift. cbn [hess_entries].
          change (hget ptr_eq cy [(cy, NConst k2 (n0 : X))]) with (Some (NConst k2 (n0 : X))).
          cbn [unwrap rbind]. rewrite H0. reflexivity. }
      reflexivity. }
  reflexivity.
Qed.

(** The history. *)
Definition cs_ : nodeX := NAdd 3 [cx; cy].
Definition ec1 : constraint X := mk_constraint 5 cx GreaterEqual (NConst 4 (Some 1%R)) "c1"%string.
Definition ec2 : constraint X := mk_constraint 7 cs_ Equal (NConst 6 (Some 3%R)) "c2"%string.
Definition ec3 : constraint X := mk_constraint 9 cm LessEqual (NConst 8 (Some 0%R)) "c3"%string.
Definition em : model X := mk_model (Minimize cm) [ec1; ec2; ec3] [(cx, Some 2%R)] None [] [].
Definition est : mstate X := mk_mstate 10 [cx; cy; cm; cs_] [ec1; ec2; ec3] [em].

Lemma ex_add k : add_nn cx cy k = Ok (NAdd k [cx; cy], S k).
Proof.
  unfold add_nn, add_other. cbn [is_constant_with_value cx cy].
  change (fold_left add_outer [cx; cy] (n0, [])) with ((n0 : X), [cx; cy]).
  cbv iota beta. replace (@neqb X _ n0 n0) with true by (symmetry; apply xeqb_t; auto). reflexivity.
Qed.

Lemma ex_hist : @hist X _ any_op est.
Proof.
  assert (H1 : @hist X _ any_op (mk_mstate 4 [cx; cy; cm; cs_] [] [])).
  { eapply (@hist_step X _ _ ord_id (mk_mstate 3 [cx; cy; cm] [] []) (CExpr (OAddNN 0 1))); [|exact I|].
    2:{ change (new_node (mk_mstate 3 [cx; cy; cm] [] []) (add_nn cx cy 3) = Some (mk_mstate 4 [cx; cy; cm; cs_] [] [])).
        rewrite ex_add. reflexivity. }
    eapply (@hist_step X _ _ ord_id (mk_mstate 2 [cx; cy] [] []) (CExpr (OMulNN 0 1))); [|exact I|reflexivity].
    eapply (@hist_step X _ _ ord_id (mk_mstate 1 [cx] [] []) (CExpr (OVar "y"%string VarContinuous))); [|exact I|reflexivity].
    eapply (@hist_step X _ _ ord_id mstart (CExpr (OVar "x"%string VarContinuous))); [constructor|exact I|reflexivity]. }
  apply (@mrun_hist X _ ord_id [CCmpNS 0 GreaterEqual (Some 1%R) "c1"%string; CCmpNS 3 Equal (Some 3%R) "c2"%string;
                    CCmpNS 2 LessEqual (Some 0%R) "c3"%string; CNewModel; CSetObj 0 Minimise 2;
                    CAddConstrs 0 [0; 1; 2]; CInit 0 [(0, Some 2%R)]] _ _ H1). reflexivity.
Qed.


(** Each constraint is standardised, from any row numbers and in any later world. *)
Lemma ex_c12 nsq k S c arow jrow : c = ec1 \/ c = ec2 ->
  world nsq k S -> S (clhs c) -> S (crhs c) -> exists r k', @constr_std X _ ord_id c arow jrow k = Ok (r, k').
Proof.
  intros Hc HW Sl Sr.
  assert (Hs : exists e k1, sub_nn (clhs c) (crhs c) k = Ok (e, k1) /\
                            (c = ec1 -> e = NAdd (Datatypes.S (Datatypes.S k)) [cx; NConst (Datatypes.S k) (Some (0 + - (1) * 1)%R)]) /\
                            (c = ec2 -> e = NAdd (Datatypes.S (Datatypes.S k)) [cx; cy; NConst (Datatypes.S k) (Some (0 + - (1) * 3)%R)])).
  { unfold sub_nn, bind. destruct Hc as [-> | ->].
    - cbn [clhs crhs ec1 mul_sn is_constant]. rewrite orb_true_r. unfold mk_const.
      change (@nmul X _ nm1 (Some 1%R)) with (Some (- (1) * 1)%R).
      unfold add_nn. cbn [is_constant_with_value cx]. replace (@neqb X _ (Some (- (1) * 1)%R) n0) with false by (symmetry; apply xeqb_f; lra). unfold add_other. cbn [fold_left add_outer].
      change (@nadd X _ n0 (Some (- (1) * 1)%R)) with (Some (0 + - (1) * 1)%R). cbn [app].
      cbn. destruct (Req_EM_T (0 + - (1) * 1) 0) as [E|_]; [exfalso; lra|]. cbn. eexists. eexists. split; [reflexivity|]. split; [auto|].
      intros E. exfalso. apply (f_equal cid) in E. discriminate.
    - cbn [clhs crhs ec2 mul_sn is_constant]. rewrite orb_true_r. unfold mk_const.
      change (@nmul X _ nm1 (Some 3%R)) with (Some (- (1) * 3)%R).
      unfold add_nn. cbn [is_constant_with_value cs_]. replace (@neqb X _ (Some (- (1) * 3)%R) n0) with false by (symmetry; apply xeqb_f; lra). unfold add_other. cbn [fold_left add_outer add_inner cx cy].
      change (@nadd X _ n0 (Some (- (1) * 3)%R)) with (Some (0 + - (1) * 3)%R). cbn [app].
      cbn. destruct (Req_EM_T (0 + - (1) * 3) 0) as [E|_]; [exfalso; lra|]. cbn. eexists. eexists. split; [reflexivity|]. split; [|auto].
      intros E. exfalso. apply (f_equal cid) in E. discriminate. }
  destruct Hs as (e & k1 & Es & He1 & He2).
  apply (constr_std_affine nsq k S c arow jrow e k1 x_nm1 HW Sl Sr Es).
  destruct Hc as [Hc|Hc]; [rewrite (He1 Hc)|rewrite (He2 Hc)]; reflexivity.
Qed.
Lemma ex_c3 nsq k S arow jrow :
  world nsq k S -> S (clhs ec3) -> S (crhs ec3) -> exists r k', @constr_std X _ ord_id ec3 arow jrow k = Ok (r, k').
Proof.
  intros HW Sl Sr. destruct (@constr_std X _ ord_id ec3 arow jrow k) as [[r k']|p] eqn:E; [eauto|exfalso].
  apply (constr_std_panic nsq k S ec3 arow jrow p x_nm1 HW Sl Sr) in E.
  assert (Es : sub_nn (clhs ec3) (crhs ec3) k = Ok (cm, Datatypes.S k)).
  { unfold sub_nn, bind. cbn [clhs crhs ec3 mul_sn is_constant]. rewrite orb_true_r. unfold mk_const.
    change (@nmul X _ nm1 (Some 0%R)) with (Some (- (1) * 0)%R).
    unfold add_nn. cbn [is_constant_with_value cm]. replace (@neqb X _ (Some (- (1) * 0)%R) n0) with true by (symmetry; apply xeqb_t; lra). reflexivity. }
  destruct E as [E|(e & k1 & E1 & E)]; [congruence|]. rewrite Es in E1. inversion E1; subst e k1.
  destruct (ex_components (Datatypes.S k)) as (c & k' & Ec & _). congruence.
Qed.

(** The standard problem exists. *)
Lemma ex_std : exists obj cs k', @model_std X _ ord_id em 10 = Ok ((obj, cs), k').
Proof.
  destruct (hist_inv false est ex_hist) as (S & Hi).
  pose proof (hi_world _ _ _ Hi) as HW. pose proof (hi_cons _ _ _ Hi) as HC. cbn [st_cons est st_k] in HC, HW.
  assert (C1 : S (clhs ec1) /\ S (crhs ec1)) by (inversion HC; intuition).
  assert (C2 : S (clhs ec2) /\ S (crhs ec2)) by (inversion HC as [|? ? _ HC2]; inversion HC2; intuition).
  assert (C3 : S (clhs ec3) /\ S (crhs ec3)) by (inversion HC as [|? ? _ HC2]; inversion HC2 as [|? ? _ HC3]; inversion HC3; intuition).
  assert (Scm : S cm) by apply C3.
  destruct (ex_components 10) as (c & ko & Eo & _).
  destruct (std_components_grows false 10 S cm HW Scm _ _ Eo) as (_ & S0 & I0 & W0 & _).
  destruct (ex_c12 false ko S0 ec1 0 0 (or_introl eq_refl) W0) as ([[p1 a1] j1] & k1 & E1); [apply I0, C1|apply I0, C1|].
  destruct (constr_std_in false ko S0 ec1 0 0 p1 a1 j1 k1 W0 (I0 _ (proj1 C1)) (I0 _ (proj2 C1)) E1) as (_ & S1 & I1 & W1 & _).
  destruct (ex_c12 false k1 S1 ec2 a1 j1 (or_intror eq_refl) W1) as ([[p2 a2] j2] & k2 & E2); [apply I1, I0, C2|apply I1, I0, C2|].
  destruct (constr_std_in false k1 S1 ec2 a1 j1 p2 a2 j2 k2 W1 (I1 _ (I0 _ (proj1 C2))) (I1 _ (I0 _ (proj2 C2))) E2) as (_ & S2 & I2 & W2 & _).
  destruct (ex_c3 false k2 S2 a2 j2 W2) as ([[p3 a3] j3] & k3 & E3); [apply I2, I1, I0, C3|apply I2, I1, I0, C3|].
  eexists. eexists. exists k3. unfold model_std.
  erewrite run_step; [|exact Eo]. unfold constrs_std. cbn [md_constraints em foldM].
  erewrite run_step.
  2:{ erewrite run_step; [|erewrite run_step; [|exact E1]; reflexivity].
      erewrite run_step; [|erewrite run_step; [|exact E2]; reflexivity].
      erewrite run_step; [|erewrite run_step; [|exact E3]; reflexivity]. reflexivity. }
  reflexivity.
Qed.
