(** Values of operator results in exact arithmetic. *)
From Verif Require Import Base Num Node NodeDiff NodeInd World.
From Coq Require Import Reals Lra.
Local Open Scope R_scope.



Lemma agrees_refl a : agrees a a. Proof. intros z Hz; exact Hz. Qed.

Lemma xeqb_true a b : xeqb a b = true <-> exists x, a = Some x /\ b = Some x.
Proof.
  unfold xeqb; destruct a as [x|], b as [y|]; try (split; [discriminate|intros (z & H1 & H2); discriminate]).
  destruct (Req_EM_T x y) as [->|Hn]; split; intros H; try discriminate; eauto.
  destruct H as (z & H1 & H2). congruence.
Qed.

Lemma xeqb_some_false x y : xeqb (Some x) (Some y) = false <-> x <> y.
Proof.
  unfold xeqb. destruct (Req_EM_T x y); split; intros; try congruence; try discriminate.
Qed.

(** Sums of possibly undefined values. *)

Lemma x2_none_r f a : x2 f a None = None. Proof. destruct a; reflexivity. Qed.

Lemma xplus_assoc a b c : x2 Rplus (x2 Rplus a b) c = x2 Rplus a (x2 Rplus b c).
Proof. destruct a, b, c; cbn; try reflexivity. f_equal; lra. Qed.
Lemma xplus_comm a b : x2 Rplus a b = x2 Rplus b a.
Proof. destruct a, b; cbn; try reflexivity. f_equal; lra. Qed.
Lemma xplus_0_l a : x2 Rplus (Some 0) a = a.
Proof. destruct a; cbn; try reflexivity. f_equal; lra. Qed.
Lemma xplus_0_r a : x2 Rplus a (Some 0) = a.
Proof. rewrite xplus_comm; apply xplus_0_l. Qed.

Lemma xsum_from l a : fold_left (x2 Rplus) l a = x2 Rplus a (xsum l).
Proof.
  unfold xsum. revert a; induction l as [|x l IH]; intros a; cbn [fold_left].
  - rewrite xplus_0_r; reflexivity.
  - rewrite IH. rewrite (IH (x2 Rplus (Some 0) x)), xplus_0_l. apply xplus_assoc.
Qed.
Lemma xsum_cons x l : xsum (x :: l) = x2 Rplus x (xsum l).
Proof. unfold xsum at 1. cbn [fold_left]. rewrite xplus_0_l. apply xsum_from. Qed.
Lemma xsum_app l1 l2 : xsum (l1 ++ l2) = x2 Rplus (xsum l1) (xsum l2).
Proof.
  induction l1 as [|x l1 IH].
  - cbn [app]. change (xsum []) with (Some 0). rewrite xplus_0_l; reflexivity.
  - cbn [app]. rewrite !xsum_cons, IH, xplus_assoc. reflexivity.
Qed.

Lemma xsum_some l z : xsum l = Some z -> Forall (fun x => exists r, x = Some r) l.
Proof.
  revert z; induction l as [|x l IH]; intros z Hz; constructor; rewrite xsum_cons in Hz;
    destruct x as [r|], (xsum l) as [s|]; try discriminate; eauto.
Qed.

Lemma fold_left_map {A B C} (f : A -> B -> A) (g : C -> B) l a :
  fold_left (fun acc x => f acc (g x)) l a = fold_left f (map g l) a.
Proof. revert a; induction l as [|x l IH]; intros a; cbn; auto. Qed.

Lemma evaluate_add vs i args :
  evaluate vs (NAdd i args : nodeX) = xsum (map (evaluate vs) args).
Proof.
  cbn [evaluate]. exact (fold_left_map (x2 Rplus) (evaluate vs) args (Some 0)).
Qed.

(** *** Addition *)
Definition st_val (vs : valsX) (st : X * list nodeX) : X :=
  x2 Rplus (fst st) (xsum (map (evaluate vs) (snd st))).

Lemma st_val_snoc vs c args x :
  st_val vs (c, args ++ [x]) = x2 Rplus (st_val vs (c, args)) (evaluate vs x).
Proof.
  unfold st_val; cbn [fst snd]. rewrite map_app, xsum_app. cbn [map].
  rewrite xsum_cons. unfold xsum at 2; cbn [fold_left]. rewrite xplus_0_r, xplus_assoc. reflexivity.
Qed.

Lemma st_val_const vs c args i v :
  st_val vs (nadd c v, args) = x2 Rplus (st_val vs (c, args)) (evaluate vs (NConst i v : nodeX)).
Proof.
  unfold st_val; cbn [fst snd evaluate]. cbn [nadd NumX].
  rewrite !xplus_assoc, (xplus_comm v). reflexivity.
Qed.

Lemma add_inner_val vs xs st :
  st_val vs (fold_left add_inner xs st) = x2 Rplus (st_val vs st) (xsum (map (evaluate vs) xs)).
Proof.
  revert st; induction xs as [|x xs IH]; intros [c args]; cbn [fold_left map].
  - unfold xsum; cbn. rewrite xplus_0_r; reflexivity.
  - rewrite IH, xsum_cons, <- xplus_assoc. f_equal.
    unfold add_inner. destruct x; try apply st_val_snoc. apply st_val_const.
Qed.

Lemma add_outer_val vs l st :
  st_val vs (fold_left add_outer l st) = x2 Rplus (st_val vs st) (xsum (map (evaluate vs) l)).
Proof.
  revert st; induction l as [|x l IH]; intros [c args]; cbn [fold_left map].
  - unfold xsum; cbn. rewrite xplus_0_r; reflexivity.
  - rewrite IH, xsum_cons, <- xplus_assoc. f_equal.
    unfold add_outer. destruct x; try apply st_val_snoc.
    + apply st_val_const.
    + rewrite add_inner_val, evaluate_add. reflexivity.
Qed.

Lemma add_other_val vs a b k r k' :
  add_other (T := X) a b k = Ok (r, k') ->
  evaluate vs r = x2 Rplus (evaluate vs a) (evaluate vs b).
Proof.
  unfold add_other.
  pose proof (add_outer_val vs [a; b] (n0, [])) as HV.
  destruct (fold_left add_outer [a; b] (n0, [])) as [c args].
  cbn [map] in HV. rewrite !xsum_cons in HV. unfold st_val in HV; cbn [fst snd map] in HV.
  change (xsum []) with (Some 0) in HV. rewrite (xplus_0_r (evaluate vs b)) in HV.
  change (n0 : X) with (Some 0) in HV. rewrite !xplus_0_l in HV.
  rewrite <- HV; clear HV.
  destruct args as [|x args].
  - intros E; inversion E; subst. cbn. change (xsum []) with (Some 0). rewrite xplus_0_r; reflexivity.
  - set (l := x :: args). clearbody l.
    destruct (negb (neqb c n0)) eqn:Hc.
    + intros E. apply bind_ok in E as (cn & k1 & E1 & E2). inversion E1; subst cn k1.
      unfold mk_add in E2. destruct (_ <? _)%nat; [discriminate|]. inversion E2; subst.
      rewrite evaluate_add, map_app, xsum_app. cbn [map evaluate].
      rewrite (xsum_cons c []). change (xsum []) with (Some 0). rewrite xplus_0_r. apply xplus_comm.
    + intros E. unfold mk_add in E. destruct (_ <? _)%nat; [discriminate|]. inversion E; subst.
      rewrite evaluate_add. apply negb_false_iff in Hc.
      apply xeqb_true in Hc as (z & -> & Hz). change (n0 : X) with (Some 0) in Hz.
      inversion Hz; subst. rewrite xplus_0_l. reflexivity.
Qed.

Lemma const_value vs (n : nodeX) (z : R) :
  is_constant_with_value n (Some z) = true -> evaluate vs n = Some z.
Proof.
  destruct n; cbn; try discriminate. intros H. apply xeqb_true in H as (x & -> & Hx). congruence.
Qed.

Lemma add_nn_val vs a b k r k' :
  add_nn (T := X) a b k = Ok (r, k') ->
  evaluate vs r = x2 Rplus (evaluate vs a) (evaluate vs b).
Proof.
  unfold add_nn. change (n0 : X) with (Some 0).
  destruct (is_constant_with_value a (Some 0)) eqn:Ha.
  { intros E; inversion E; subst. rewrite (const_value vs _ _ Ha), xplus_0_l; reflexivity. }
  destruct (is_constant_with_value b (Some 0)) eqn:Hb.
  { intros E; inversion E; subst. rewrite (const_value vs _ _ Hb), xplus_0_r; reflexivity. }
  apply add_other_val.
Qed.

Lemma xeqb_zero v : neqb (v : X) n0 = true -> v = Some 0.
Proof. intros H. apply xeqb_true in H as (x & -> & Hx). exact (eq_sym Hx) || congruence. Qed.
Lemma xeqb_one v : neqb (v : X) n1 = true -> v = Some 1.
Proof. intros H. apply xeqb_true in H as (x & -> & Hx). exact (eq_sym Hx) || congruence. Qed.

Lemma add_ns_val vs a v k r k' :
  add_ns (T := X) a v k = Ok (r, k') -> evaluate vs r = x2 Rplus (evaluate vs a) v.
Proof.
  unfold add_ns. destruct (neqb v n0) eqn:Hv.
  - intros E; inversion E; subst. apply xeqb_zero in Hv as ->. rewrite xplus_0_r; reflexivity.
  - intros E. apply bind_ok in E as (c & k1 & E1 & E2). inversion E1; subst.
    apply (add_other_val vs) in E2. exact E2.
Qed.
Lemma add_sn_val vs v a k r k' :
  add_sn (T := X) v a k = Ok (r, k') -> evaluate vs r = x2 Rplus v (evaluate vs a).
Proof.
  unfold add_sn. destruct (neqb v n0) eqn:Hv.
  - intros E; inversion E; subst. apply xeqb_zero in Hv as ->. rewrite xplus_0_l; reflexivity.
  - intros E. apply bind_ok in E as (c & k1 & E1 & E2). inversion E1; subst.
    apply (add_other_val vs) in E2. exact E2.
Qed.

(** *** Multiplication *)
Lemma xmult_xsum c l : agrees (x2 Rmult (Some c) (xsum l)) (xsum (map (x2 Rmult (Some c)) l)).
Proof.
  induction l as [|x l IH]; intros z Hz.
  - cbn in *. inversion Hz; subst. unfold xsum; cbn. f_equal; lra.
  - cbn [map]. rewrite xsum_cons in *. destruct x as [x|]; [|discriminate].
    destruct (xsum l) as [s|]; [|discriminate]. cbn in Hz. inversion Hz; subst.
    rewrite (IH (c * s) eq_refl). cbn. f_equal; lra.
Qed.

Lemma mapM_vals vs (f : nodeX -> M nodeX) (g : X -> X) l k rs k' :
  mapM f l k = Ok (rs, k') ->
  (forall x, In x l -> forall k r k', f x k = Ok (r, k') -> agrees (g (evaluate vs x)) (evaluate vs r)) ->
  agrees (xsum (map g (map (evaluate vs) l))) (xsum (map (evaluate vs) rs)).
Proof.
  revert k rs k'; induction l as [|x l IH]; intros k rs k' E Hf.
  - inversion E; subst. apply agrees_refl.
  - apply mapM_cons_ok in E as (b & k1 & bs & E1 & E2 & ->). cbn [map].
    intros z Hz. rewrite xsum_cons in *.
    destruct (g (evaluate vs x)) as [u|] eqn:Eu; [|discriminate].
    destruct (xsum (map g (map (evaluate vs) l))) as [s|] eqn:Es; [|discriminate].
    rewrite (Hf x (or_introl eq_refl) _ _ _ E1 u Eu).
    rewrite (IH _ _ _ E2 (fun y Hy => Hf y (or_intror Hy)) s eq_refl). exact Hz.
Qed.

(** A sum of distributed products. *)
Lemma dist_sum_val vs (f : nodeX -> M nodeX) c i l k r k' :
  bind (mapM f l) (fun rs => mk_add rs) k = Ok (r, k') ->
  (forall x, In x l -> forall k r k', f x k = Ok (r, k') ->
     agrees (x2 Rmult (Some c) (evaluate vs x)) (evaluate vs r)) ->
  agrees (x2 Rmult (Some c) (evaluate vs (NAdd i l))) (evaluate vs r).
Proof.
  intros E Hf. apply bind_ok in E as (rs & k1 & E1 & E2).
  unfold mk_add in E2. destruct (_ <? _)%nat; [discriminate|]. inversion E2; subst.
  rewrite !evaluate_add. intros z Hz. apply xmult_xsum in Hz.
  eapply mapM_vals; eauto.
Qed.

Lemma xmult_comm a b : x2 Rmult a b = x2 Rmult b a.
Proof. destruct a, b; cbn; try reflexivity. f_equal; lra. Qed.
Lemma xmult_1_l a : x2 Rmult (Some 1) a = a.
Proof. destruct a; cbn; try reflexivity. f_equal; lra. Qed.
Lemma xmult_0_l a : agrees (x2 Rmult (Some 0) a) (Some 0).
Proof. intros z; destruct a; cbn; intros E; inversion E. f_equal; lra. Qed.

Lemma const_eval (n : nodeX) vs vs' : is_constant n = true -> evaluate vs n = evaluate vs' n.
Proof. destruct n; cbn; try discriminate; reflexivity. Qed.

Definition mul_head (s r : nodeX) (rest : M nodeX) : M nodeX :=
  if is_constant_with_value s n0 || is_constant_with_value r n0 then mk_const n0
  else if is_constant_with_value s n1 then ret r
  else if is_constant_with_value r n1 then ret s
  else if is_constant s && is_constant r then mk_const (nmul (evaluate [] s) (evaluate [] r))
  else rest.

Lemma mul_head_val vs s r rest k x k' :
  mul_head s r rest k = Ok (x, k') ->
  (rest k = Ok (x, k') -> agrees (x2 Rmult (evaluate vs s) (evaluate vs r)) (evaluate vs x)) ->
  agrees (x2 Rmult (evaluate vs s) (evaluate vs r)) (evaluate vs x).
Proof.
  unfold mul_head. change (n0 : X) with (Some 0). change (n1 : X) with (Some 1).
  destruct (is_constant_with_value s (Some 0)) eqn:Hs0; cbn [orb].
  { intros E _; inversion E; subst. rewrite (const_value vs _ _ Hs0). apply xmult_0_l. }
  destruct (is_constant_with_value r (Some 0)) eqn:Hr0.
  { intros E _; inversion E; subst. rewrite (const_value vs _ _ Hr0), xmult_comm. apply xmult_0_l. }
  destruct (is_constant_with_value s (Some 1)) eqn:Hs1.
  { intros E _; inversion E; subst. rewrite (const_value vs _ _ Hs1), xmult_1_l. apply agrees_refl. }
  destruct (is_constant_with_value r (Some 1)) eqn:Hr1.
  { intros E _; inversion E; subst. rewrite (const_value vs _ _ Hr1), xmult_comm, xmult_1_l. apply agrees_refl. }
  destruct (is_constant s && is_constant r) eqn:Hc.
  { intros E _; inversion E; subst. apply andb_true_iff in Hc as [Hs Hr].
    rewrite (const_eval s vs [] Hs), (const_eval r vs [] Hr). apply agrees_refl. }
  intros E Hrest; auto.
Qed.

Lemma mk_mul_val vs a b k r k' :
  mk_mul (T := X) a b k = Ok (r, k') -> evaluate vs r = x2 Rmult (evaluate vs a) (evaluate vs b).
Proof. intros E; inversion E; subst; reflexivity. Qed.

Lemma const_some (s : nodeX) vs z : is_constant s = true -> evaluate vs s = Some z -> forall vs', evaluate vs' s = Some z.
Proof. intros H1 H2 vs'. rewrite (const_eval s vs' vs H1); exact H2. Qed.

Lemma mul_cn_val vs s r k x k' :
  is_constant s = true ->
  mul_cn (T := X) s r k = Ok (x, k') ->
  agrees (x2 Rmult (evaluate vs s) (evaluate vs r)) (evaluate vs x).
Proof.
  intros Hs. revert k x k'.
  induction r as [i v|i st kd|i args IH|i a _|i a b _ _|i a b _ _|i a _] using node_ind'; intros k x k' E;
    (eapply mul_head_val; [exact E|]; clear E; intros E);
    try (rewrite (mk_mul_val vs _ _ _ _ _ E); apply agrees_refl).
  rewrite Forall_forall in IH. intros z Hz.
  destruct (evaluate vs s) as [c|] eqn:Ec; [|discriminate].
  eapply dist_sum_val; [exact E| |exact Hz].
  intros y Hy k0 r0 k0' E0. exact (IH y Hy _ _ _ E0).
Qed.

Lemma mul_nc_val vs s r k x k' :
  is_constant r = true ->
  mul_nc (T := X) s r k = Ok (x, k') ->
  agrees (x2 Rmult (evaluate vs s) (evaluate vs r)) (evaluate vs x).
Proof.
  intros Hr. revert k x k'.
  induction s as [i v|i st kd|i args IH|i a _|i a b _ _|i a b _ _|i a _] using node_ind'; intros k x k' E;
    (eapply mul_head_val; [exact E|]; clear E; intros E);
    try (rewrite (mk_mul_val vs _ _ _ _ _ E); apply agrees_refl).
  rewrite Forall_forall in IH. rewrite xmult_comm. intros z Hz.
  destruct (evaluate vs r) as [c|] eqn:Ec; [|discriminate].
  eapply dist_sum_val; [exact E| |exact Hz].
  intros y Hy k0 r0 k0' E0. rewrite xmult_comm. exact (IH y Hy _ _ _ E0).
Qed.

Lemma mul_nn_val vs a b k r k' :
  mul_nn (T := X) a b k = Ok (r, k') ->
  agrees (x2 Rmult (evaluate vs a) (evaluate vs b)) (evaluate vs r).
Proof.
  intros E. eapply mul_head_val; [exact E|]; clear E; intros E.
  assert (Hgen : mk_mul a b k = Ok (r, k') ->
                 agrees (x2 Rmult (evaluate vs a) (evaluate vs b)) (evaluate vs r)).
  { intros E'. rewrite (mk_mul_val vs _ _ _ _ _ E'). apply agrees_refl. }
  destruct a as [i v|i st kd|i xs|i x|i x y|i x y|i x]; try exact (Hgen E);
    destruct b as [j w|j st' kd'|j ys|j x'|j x' y'|j x' y'|j x']; try exact (Hgen E); clear Hgen.
  - intros z Hz. destruct (evaluate vs (NConst i v)) as [c|] eqn:Ec; [|discriminate].
    eapply dist_sum_val; [exact E| |exact Hz].
    intros y Hy k0 r0 k0' E0. rewrite <- Ec. eapply mul_cn_val; [reflexivity|exact E0].
  - rewrite xmult_comm. intros z Hz. destruct (evaluate vs (NConst j w)) as [c|] eqn:Ec; [|discriminate].
    eapply dist_sum_val; [exact E| |exact Hz].
    intros y Hy k0 r0 k0' E0. rewrite <- Ec, xmult_comm. eapply mul_nc_val; [reflexivity|exact E0].
Qed.

Lemma mul_ns_val vs a v k r k' :
  mul_ns (T := X) a v k = Ok (r, k') ->
  agrees (x2 Rmult (evaluate vs a) v) (evaluate vs r).
Proof.
  revert k r k'.
  induction a as [i w|i st kd|i args IH|i a _|i a b _ _|i a b _ _|i a _] using node_ind'; intros k r k' E;
    cbn [mul_ns is_constant is_constant_with_value orb] in E.
  1: { inversion E; subst. apply agrees_refl. }
  all: destruct (neqb v n0) eqn:Hv0;
    [inversion E; subst; apply xeqb_zero in Hv0 as ->; rewrite xmult_comm; apply xmult_0_l|].
  all: destruct (neqb v n1) eqn:Hv1;
    [inversion E; subst; apply xeqb_one in Hv1 as ->; rewrite xmult_comm, xmult_1_l; apply agrees_refl|].
  2: { rewrite Forall_forall in IH. rewrite xmult_comm. intros z Hz.
       destruct v as [c|]; [|discriminate].
       eapply dist_sum_val; [exact E| |exact Hz].
       intros y Hy k0 r0 k0' E0. rewrite xmult_comm. exact (IH y Hy _ _ _ E0). }
  all: apply bind_ok in E as (c & k1 & E1 & E2); inversion E1; subst; inversion E2; subst;
       apply agrees_refl.
Qed.

Lemma mul_sn_val vs v a k r k' :
  mul_sn (T := X) v a k = Ok (r, k') ->
  agrees (x2 Rmult v (evaluate vs a)) (evaluate vs r).
Proof.
  revert k r k'.
  induction a as [i w|i st kd|i args IH|i a _|i a b _ _|i a b _ _|i a _] using node_ind'; intros k r k' E;
    cbn [mul_sn is_constant is_constant_with_value orb] in E.
  1: { rewrite orb_true_r in E. inversion E; subst. apply agrees_refl. }
  all: destruct (neqb v n0) eqn:Hv0; cbn [orb] in E;
    [inversion E; subst; apply xeqb_zero in Hv0 as ->; apply xmult_0_l|].
  all: destruct (neqb v n1) eqn:Hv1;
    [inversion E; subst; apply xeqb_one in Hv1 as ->; rewrite xmult_1_l; apply agrees_refl|].
  2: { rewrite Forall_forall in IH. intros z Hz.
       destruct v as [c|]; [|discriminate].
       eapply dist_sum_val; [exact E| |exact Hz].
       intros y Hy k0 r0 k0' E0. exact (IH y Hy _ _ _ E0). }
  all: apply bind_ok in E as (c & k1 & E1 & E2); inversion E1; subst; inversion E2; subst;
       apply agrees_refl.
Qed.

(** *** Negation, subtraction, division *)
Lemma neg_n_val vs a k r k' :
  neg_n (T := X) a k = Ok (r, k') -> agrees (x1 Ropp (evaluate vs a)) (evaluate vs r).
Proof.
  assert (Hm : x1 Ropp (evaluate vs a) = x2 Rmult (nm1 : X) (evaluate vs a)).
  { cbn. destruct (evaluate vs a); cbn; try reflexivity. f_equal; lra. }
  rewrite Hm. intros E. destruct a; cbn [neg_n] in E; try (eapply mul_sn_val; exact E).
  inversion E; subst. apply agrees_refl.
Qed.

Lemma xminus_neg a b : x2 Rminus a b = x2 Rplus a (x2 Rmult (nm1 : X) b).
Proof. destruct a, b; cbn; try reflexivity. f_equal; lra. Qed.

Lemma sub_nn_val vs a b k r k' :
  sub_nn (T := X) a b k = Ok (r, k') ->
  agrees (x2 Rminus (evaluate vs a) (evaluate vs b)) (evaluate vs r).
Proof.
  unfold sub_nn. intros E. apply bind_ok in E as (m & k1 & E1 & E2).
  apply (mul_sn_val vs) in E1. apply (add_nn_val vs) in E2.
  rewrite E2, xminus_neg. intros z Hz.
  destruct (x2 Rmult nm1 (evaluate vs b)) as [u|] eqn:Eu; [|rewrite x2_none_r in Hz; discriminate].
  rewrite (E1 u eq_refl). exact Hz.
Qed.

Lemma sub_ns_val vs a v k r k' :
  sub_ns (T := X) a v k = Ok (r, k') ->
  agrees (x2 Rminus (evaluate vs a) v) (evaluate vs r).
Proof.
  unfold sub_ns. intros E. apply bind_ok in E as (c & k0 & E0 & E).
  inversion E0; subst. apply bind_ok in E as (m & k1 & E1 & E2).
  apply (mul_sn_val vs) in E1. apply (add_nn_val vs) in E2.
  rewrite E2, xminus_neg. intros z Hz. cbn [evaluate] in E1.
  destruct (x2 Rmult nm1 v) as [u|] eqn:Eu; [|rewrite x2_none_r in Hz; discriminate].
  rewrite (E1 u eq_refl). exact Hz.
Qed.

Lemma sub_sn_val vs v b k r k' :
  sub_sn (T := X) v b k = Ok (r, k') ->
  agrees (x2 Rminus v (evaluate vs b)) (evaluate vs r).
Proof.
  unfold sub_sn. intros E. apply bind_ok in E as (c & k0 & E0 & E).
  inversion E0; subst. apply bind_ok in E as (m & k1 & E1 & E2).
  apply (mul_sn_val vs) in E1. apply (add_nn_val vs) in E2.
  rewrite E2, xminus_neg. intros z Hz. cbn [evaluate].
  destruct (x2 Rmult nm1 (evaluate vs b)) as [u|] eqn:Eu; [|rewrite x2_none_r in Hz; discriminate].
  rewrite (E1 u eq_refl). exact Hz.
Qed.

Lemma xdiv_1 a : xdiv a (Some 1) = a.
Proof. destruct a; cbn; try reflexivity. destruct (Req_EM_T 1 0); [lra|]. f_equal; field. Qed.
Lemma xdiv_0_l b : agrees (xdiv (Some 0) b) (Some 0).
Proof.
  intros z; destruct b; cbn; [|discriminate]. destruct (Req_EM_T r 0); [discriminate|].
  intros E; inversion E. f_equal; unfold Rdiv; lra.
Qed.

Lemma div_nn_val vs a b k r k' :
  div_nn (T := X) a b k = Ok (r, k') ->
  agrees (xdiv (evaluate vs a) (evaluate vs b)) (evaluate vs r).
Proof.
  unfold div_nn. change (n0 : X) with (Some 0). change (n1 : X) with (Some 1).
  destruct (is_constant_with_value b (Some 0)); [discriminate|].
  destruct (is_constant_with_value b (Some 1)) eqn:Hb1.
  { intros E; inversion E; subst. rewrite (const_value vs _ _ Hb1), xdiv_1. apply agrees_refl. }
  destruct (is_constant_with_value a (Some 0)) eqn:Ha0.
  { intros E; inversion E; subst. rewrite (const_value vs _ _ Ha0). apply xdiv_0_l. }
  destruct (is_constant a && is_constant b) eqn:Hc.
  { intros E; inversion E; subst. apply andb_true_iff in Hc as [Hs Hr].
    rewrite (const_eval a vs [] Hs), (const_eval b vs [] Hr). apply agrees_refl. }
  intros E; inversion E; subst. apply agrees_refl.
Qed.

Lemma div_ns_val vs a v k r k' :
  div_ns (T := X) a v k = Ok (r, k') -> agrees (xdiv (evaluate vs a) v) (evaluate vs r).
Proof.
  unfold div_ns.
  destruct (neqb v n0); [discriminate|].
  destruct (neqb v n1) eqn:Hb1.
  { intros E; inversion E; subst. apply xeqb_one in Hb1 as ->. rewrite xdiv_1. apply agrees_refl. }
  change (n0 : X) with (Some 0).
  destruct (is_constant_with_value a (Some 0)) eqn:Ha0.
  { intros E; inversion E; subst. rewrite (const_value vs _ _ Ha0). apply xdiv_0_l. }
  destruct (is_constant a) eqn:Hc.
  { intros E; inversion E; subst. rewrite (const_eval a vs [] Hc). apply agrees_refl. }
  intros E. apply bind_ok in E as (c & k1 & E1 & E2). inversion E1; subst. inversion E2; subst.
  apply agrees_refl.
Qed.

Lemma div_sn_val vs v b k r k' :
  div_sn (T := X) v b k = Ok (r, k') -> agrees (xdiv v (evaluate vs b)) (evaluate vs r).
Proof.
  unfold div_sn. change (is_constant_with_value b n1) with (is_constant_with_value b (Some 1)).
  destruct (is_constant_with_value b n0); [discriminate|].
  destruct (is_constant_with_value b (Some 1)) eqn:Hb1.
  { intros E; inversion E; subst. rewrite (const_value vs _ _ Hb1), xdiv_1. apply agrees_refl. }
  destruct (neqb v n0) eqn:Ha0.
  { intros E; inversion E; subst. apply xeqb_zero in Ha0 as ->. apply xdiv_0_l. }
  destruct (is_constant b) eqn:Hc.
  { intros E; inversion E; subst. rewrite (const_eval b vs [] Hc). apply agrees_refl. }
  intros E. apply bind_ok in E as (c & k1 & E1 & E2). inversion E1; subst. inversion E2; subst.
  apply agrees_refl.
Qed.

Lemma cos_n_val vs a k r k' :
  Node.cos_n (T := X) a k = Ok (r, k') -> evaluate vs r = x1 cos (evaluate vs a).
Proof. unfold Node.cos_n. destruct a; intros E; inversion E; subst; reflexivity. Qed.
Lemma sin_n_val vs a k r k' :
  Node.sin_n (T := X) a k = Ok (r, k') -> evaluate vs r = x1 sin (evaluate vs a).
Proof. unfold Node.sin_n. destruct a; intros E; inversion E; subst; reflexivity. Qed.

(** If an expression has a value, so have all expressions in it. *)
Lemma evaluate_arg vs (n c : nodeX) z :
  In c (arguments n) -> evaluate vs n = Some z -> exists y, evaluate vs c = Some y.
Proof.
  destruct n as [i v|i st kd|i args|i x|i x y|i x y|i x]; cbn [arguments]; intros Hin Hz.
  - destruct Hin.
  - destruct Hin.
  - rewrite evaluate_add in Hz. apply xsum_some in Hz. rewrite Forall_forall in Hz.
    apply Hz. apply in_map; exact Hin.
  - destruct Hin as [<-|[]]. cbn in Hz. destruct (evaluate vs x); [eauto|discriminate].
  - cbn in Hz. destruct (evaluate vs x) eqn:E1; [|discriminate].
    destruct (evaluate vs y) eqn:E2; [|discriminate].
    destruct Hin as [<-|[<-|[]]]; eauto.
  - cbn in Hz. destruct (evaluate vs x) eqn:E1; [|discriminate].
    destruct (evaluate vs y) eqn:E2; [|discriminate].
    destruct Hin as [<-|[<-|[]]]; eauto.
  - destruct Hin as [<-|[]]. cbn in Hz. destruct (evaluate vs x); [eauto|discriminate].
Qed.

Lemma evaluate_sub vs (n s : nodeX) z :
  sub s n -> evaluate vs n = Some z -> exists y, evaluate vs s = Some y.
Proof.
  intros Hs; revert z; induction Hs as [n|s c n Hin Hs IH]; intros z Hz; [eauto|].
  destruct (evaluate_arg _ _ _ _ Hin Hz) as [y Hy]. eauto.
Qed.
