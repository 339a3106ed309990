(** Proofs about the rounding errors of second derivatives. *)
From Verif Require Import Base Num Node NodeInd NodeDiff ExprSpec World EvalProofs PathProofs DerivProofs PanicProofs ExprExtra Api TextSpec ExactSpec RoundSpec PolySpec
     FmtProofs FloatProofs FloatOps RoundOps RoundProofs Properties_Text Properties_Round NegF DerEstSpec DerEstProofs SecondSpec.
From Coq Require Import Reals Lra Lia FunctionalExtensionality Floats.SpecFloat.
From Flocq Require Import Core.
Import RoundSpec.
Local Open Scope R_scope.

(** *** The values and the derivatives of real functions, through products. *)
Lemma near_pos f m k x : Rabs f <= m -> Rabs (x - f) <= gam k * m -> 0 <= m /\ 0 <= gam k.
Proof. intros H1 _. split; [pose proof (Rabs_pos f); lra|apply gam_pos]. Qed.
Lemma near_k x f m k k' : Rabs f <= m -> Rabs (x - f) <= gam k * m -> (k <= k')%nat -> Rabs (x - f) <= gam k' * m.
Proof.
  intros Ha Hx Hk. eapply Rle_trans; [exact Hx|]. apply Rmult_le_compat_r; [pose proof (Rabs_pos f); lra|apply gam_mono; exact Hk].
Qed.
Lemma near_sum x f m k y g l j : Rabs f <= m -> Rabs (x - f) <= gam k * m -> Rabs g <= l -> Rabs (y - g) <= gam j * l ->
  Rabs (x + y - (f + g)) <= gam (k + j) * (m + l).
Proof.
  intros Ha Hx Hb Hy. pose proof (near_k _ _ _ _ (k + j) Ha Hx ltac:(lia)). pose proof (near_k _ _ _ _ (k + j) Hb Hy ltac:(lia)).
  replace (x + y - (f + g)) with ((x - f) + (y - g)) by ring. eapply Rle_trans; [apply Rabs_triang|]. lra.
Qed.
(** One of two factors is near zero, the other is anything that is not too large. *)
Lemma near_zero f m k g l : Rabs f <= m -> Rabs (0 - f) <= gam k * m -> Rabs g <= l -> Rabs (0 - f * g) <= gam k * (m * l).
Proof.
  intros Ha Hx Hb. replace (0 - f * g) with ((0 - f) * g) by ring. rewrite Rabs_mult, <- Rmult_assoc. apply Rmult_le_compat; try apply Rabs_pos; assumption.
Qed.
Lemma abs_mul f m g l : Rabs f <= m -> Rabs g <= l -> Rabs (f * g) <= m * l.
Proof. intros Ha Hb. rewrite Rabs_mult. apply Rmult_le_compat; try apply Rabs_pos; assumption. Qed.
Lemma abs_add f m g l : Rabs f <= m -> Rabs g <= l -> Rabs (f + g) <= m + l.
Proof. intros Ha Hb. eapply Rle_trans; [apply Rabs_triang|]. lra. Qed.

Definition plain (n : node F) : Prop := is_constant n = true \/ finite_constants n.
Definition plain_terms (n : node F) : Prop := Forall plain (terms n).
Definition const_vb (n : node F) : Prop := forall i v, n = NConst i v -> vb v.
Lemma fc_arg n a : finite_constants n -> In a (arguments n) -> finite_constants a.
Proof. intros Hf Ha i v Hv. apply (Hf i). eapply sub_arg; [exact Ha|exact Hv]. Qed.
Lemma fc_terms n : finite_constants n -> Forall finite_constants (terms n).
Proof.
  intros Hf. destruct n as [i w|i s kd|i l|i a|i a b|i a b|i a]; cbn [terms]; try (constructor; [exact Hf|constructor]).
  apply Forall_forall. intros a Ha. eapply fc_arg; [exact Hf|exact Ha].
Qed.
Lemma fc_plain n : finite_constants n -> plain_terms n.
Proof. intros Hf. eapply Forall_impl; [|apply fc_terms; exact Hf]. intros a Ha. right. exact Ha. Qed.
Lemma fc_const i v : finite_constants (NConst i v) -> fin v.
Proof. intros Hf. apply finite_fin. apply (Hf i). apply sub_refl. Qed.
Lemma const_fc i v : fin v -> finite_constants (NConst i v).
Proof. intros Hv j w Hs. inversion Hs as [|s c n Hin Hs']; subst; [apply finite_fin; exact Hv|]. destruct Hin. Qed.
Lemma value_terms n r : real_value n r = tot (map (fun t => real_value t r) (terms n)).
Proof.
  destruct n as [i w|i s kd|i l|i a|i a b|i a b|i a]; cbn [terms map tot]; try (rewrite Rplus_0_r; reflexivity).
  cbn [real_value]. induction l as [|x l IH]; [reflexivity|]. cbn [fold_right map tot]. rewrite IH. reflexivity.
Qed.
Lemma slope_terms c n r : dval c n r = tot (map (fun t => dval c t r) (terms n)).
Proof.
  destruct n as [i w|i s kd|i l|i a|i a b|i a b|i a]; cbn [terms map tot]; try (rewrite Rplus_0_r; reflexivity).
  cbn [dval]. induction l as [|x l IH]; [reflexivity|]. cbn [fold_right map tot]. rewrite IH. reflexivity.
Qed.
Lemma slope_nonconsts c r l : tot (map (fun t => dval c t r) l) = tot (map (fun t => dval c t r) (nonconsts l)).
Proof.
  induction l as [|x l IH]; [reflexivity|]. unfold nonconsts in *. cbn [map tot filter]. rewrite IH.
  destruct x; cbn [is_constant negb map tot dval]; try reflexivity. ring.
Qed.

Section Second.
  Variables fsin fcos : F -> F.
  Notation NF := (NumF fsin fcos).
  Local Instance num_f : Num F := NF.
  Variables (vs : vals F) (r : nat -> R).
  Hypothesis Hr : reads vs r.
  Variable c2 : nat.
  Notation ev := (@evaluate F NF vs).
  Notation gd n e := (good fsin fcos vs n (e_val e r) (e_mag e r) (e_ops e)).
  Notation okn := (fine fsin fcos true vs r).
  Notation V n := (real_value n r).
  Notation D n := (dval c2 n r).
  Variable S : node F -> Prop.
  Hypothesis Hclosed : forall n c, S n -> In c (arguments n) -> S c.
  Hypothesis Hcoh : forall a b, S a -> S b -> nid a = nid b -> a = b.
  Hypothesis Hcan : forall n, S n -> @ExprSpec.canonical F NF n.

  (** The real function of [n] has the value [f] up to [k] roundings, and the derivative [f]. *)
  Record vrel (n : node F) (f m : R) (k : nat) : Prop := {
    vr_vb : const_vb n;
    vr_abs : Rabs f <= m;
    vr_err : finite_constants n -> Rabs (V n - f) <= gam k * m }.
  Definition pv (k : nat) (x : node F) (e : R * R) : Prop := notsum x /\ vrel x (fst e) (snd e) k.
  Definition goodv (n : node F) (f m : R) (k : nat) : Prop :=
    exists es, terms n <> [] /\ Forall2 (pv k) (terms n) es /\ f = tot (map fst es) /\ tot (map snd es) <= m /\ (length (terms n) <= k + 1)%nat.
  Definition goodd (n : node F) (f m : R) (k : nat) : Prop := Rabs f <= m /\ (plain_terms n -> Rabs (D n - f) <= gam k * m).

  Lemma vrel_weak n f m k m' k' : vrel n f m k -> m <= m' -> (k <= k')%nat -> vrel n f m' k'.
  Proof.
    intros [H1 H2 H3] Hm Hk. pose proof (Rabs_pos f). constructor; [exact H1|lra|]. intros Hf. eapply Rle_trans; [apply H3; exact Hf|].
    apply Rmult_le_compat; [apply gam_pos|lra|apply gam_mono; exact Hk|exact Hm].
  Qed.
  Lemma goodd_weak n f m k m' k' : goodd n f m k -> m <= m' -> (k <= k')%nat -> goodd n f m' k'.
  Proof.
    intros [H2 H3] Hm Hk. pose proof (Rabs_pos f). split; [lra|]. intros Hf. eapply Rle_trans; [apply H3; exact Hf|].
    apply Rmult_le_compat; [apply gam_pos|lra|apply gam_mono; exact Hk|exact Hm].
  Qed.
  Lemma pv_tot k l es : Forall2 (pv k) l es -> Rabs (tot (map fst es)) <= tot (map snd es) /\
    (Forall finite_constants l -> Rabs (tot (map (fun t => V t) l) - tot (map fst es)) <= gam k * tot (map snd es)).
  Proof.
    intros Hl. induction Hl as [|x e l es [_ [_ Ha He]] Hl [IH1 IH2]]; cbn [map tot].
    - rewrite Rminus_diag_eq, Rabs_R0, Rmult_0_r by reflexivity. split; [lra|intros _; lra].
    - split; [apply abs_add; assumption|]. intros Hf. specialize (He (Forall_inv Hf)). specialize (IH2 (Forall_inv_tail Hf)).
      replace (V x + tot (map (fun t => V t) l) - (fst e + tot (map fst es))) with ((V x - fst e) + (tot (map (fun t => V t) l) - tot (map fst es))) by ring.
      eapply Rle_trans; [apply Rabs_triang|]. lra.
  Qed.
  Lemma goodv_vrel n f m k : goodv n f m k -> vrel n f m k.
  Proof.
    intros (es & H1 & H2 & -> & H4 & H5). destruct (pv_tot _ _ _ H2) as [G1 G2]. constructor.
    - intros i v ->. cbn [terms] in H2. inversion H2 as [|x e l es' [_ [Hv _ _]] _]; subst. exact (Hv i v eq_refl).
    - lra.
    - intros Hf. rewrite value_terms. eapply Rle_trans; [apply G2; apply fc_terms; exact Hf|]. apply Rmult_le_compat_l; [apply gam_pos|exact H4].
  Qed.
  Lemma vrel_goodv n f m k : notsum n -> vrel n f m k -> goodv n f m k.
  Proof.
    intros Hn Hv. exists [(f, m)]. rewrite (notsum_terms n Hn). repeat split; [discriminate| |cbn; lra|cbn; lra|cbn; lia].
    constructor; [split; [exact Hn|exact Hv]|constructor].
  Qed.
  Lemma goodv_weak n f m k m' k' : goodv n f m k -> m <= m' -> (k <= k')%nat -> goodv n f m' k'.
  Proof.
    intros (es & H1 & H2 & H3 & H4 & H5) Hm Hk. exists es. repeat split; auto; [|lra|lia].
    clear H1 H3 H4 H5. induction H2 as [|x e l es [Hn Hx] Hf IH]; constructor; auto. split; [exact Hn|]. eapply vrel_weak; [exact Hx|lra|exact Hk].
  Qed.
  Lemma goodv_mag n f m k : goodv n f m k -> 0 <= m.
  Proof. intros G. apply goodv_vrel in G as [_ Ha _]. pose proof (Rabs_pos f). lra. Qed.

  (** *** Products of nodes. *)
  Definition isc (n : node F) (z : Z) : Prop := exists i v, n = NConst i v /\ SFeqb v (flit z) = true.
  Inductive product (p q : node F) : node F -> Prop :=
  | pr_zero i : isc p 0 \/ isc q 0 -> product p q (NConst i (flit 0))
  | pr_onel : isc p 1 -> product p q q
  | pr_oner : isc q 1 -> product p q p
  | pr_fold i1 i2 i v w : p = NConst i1 v -> q = NConst i2 w -> product p q (NConst i (SFmul 53 1024 v w))
  | pr_mul i : product p q (NMul i p q).
  Lemma isc_iff n z : is_constant_with_value n (flit z) = true -> isc n z.
  Proof. intros E. destruct n as [i v|i s kd|i l|i a|i a b|i a b|i a]; try discriminate E. exists i, v. split; [reflexivity|exact E]. Qed.
  Lemma isc_val n z f m k : (Z.abs z <= 2 ^ 53)%Z -> isc n z -> vrel n f m k -> finite_constants n /\ V n = IZR z /\ D n = 0 /\ Rabs (IZR z - f) <= gam k * m.
  Proof.
    intros Hz (i & v & -> & E) [Hv _ He]. destruct (neqb_fin v z Hz (Hv i v eq_refl) E) as [Fv Vv]. pose proof (const_fc i v Fv) as Hf.
    specialize (He Hf). cbn [real_value dval] in *. rewrite float_value_fval, Vv in *. auto.
  Qed.
  Lemma head_product a b rest n st st' : @head fsin fcos a b rest st = Ok (n, st') ->
    product a b n \/ (rest st = Ok (n, st') /\ ~ isc a 0 /\ ~ isc b 0).
  Proof.
    intros E. unfold head in E. change (@n0 F (RoundProofs.num_f fsin fcos)) with (flit 0) in E. change (@n1 F (RoundProofs.num_f fsin fcos)) with (flit 1) in E.
    destruct (is_constant_with_value a (flit 0)) eqn:Ea0; cbn [orb] in E.
    { left. unfold mk_const in E. injection E as <- _. apply pr_zero. left. apply isc_iff. exact Ea0. }
    destruct (is_constant_with_value b (flit 0)) eqn:Eb0.
    { left. unfold mk_const in E. injection E as <- _. apply pr_zero. right. apply isc_iff. exact Eb0. }
    destruct (is_constant_with_value a (flit 1)) eqn:Ea1; [left; unfold ret in E; injection E as <- _; apply pr_onel, isc_iff, Ea1|].
    destruct (is_constant_with_value b (flit 1)) eqn:Eb1; [left; unfold ret in E; injection E as <- _; apply pr_oner, isc_iff, Eb1|].
    assert (N0 : forall x, is_constant_with_value x (flit 0) = false -> ~ isc x 0).
    { intros x Ex (i & v & -> & Ev). change (SFeqb v (flit 0) = false) in Ex. rewrite Ev in Ex. discriminate Ex. }
    destruct (is_constant a && is_constant b) eqn:Ec; [|right; auto]. left.
    apply andb_true_iff in Ec as [Ca Cb]. destruct a as [i v|i s kd|i ar|i x|i x y|i x y|i x]; try discriminate Ca.
    destruct b as [i' w|i' s kd|i' ar|i' x|i' x y|i' x y|i' x]; try discriminate Cb.
    unfold mk_const in E. injection E as <- _. eapply pr_fold; reflexivity.
  Qed.
  Lemma mk_mul_product a b (n : node F) st st' : mk_mul a b st = Ok (n, st') -> product a b n.
  Proof. intros E. unfold mk_mul in E. injection E as <- _. apply pr_mul. Qed.
  Lemma cn_product s x n st st' : notsum x -> @mul_cn F NF s x st = Ok (n, st') -> product s x n.
  Proof.
    intros Hn E. destruct x as [i0 v0|i0 s0 kd0|i0 l0|i0 a0|i0 a0 b0|i0 a0 b0|i0 a0]; try (destruct Hn; fail);
      (apply (head_product s _ (mk_mul s _)) in E as [E|[E _]]; [exact E|eapply mk_mul_product; exact E]).
  Qed.
  Lemma nc_product s x n st st' : notsum x -> @mul_nc F NF x s st = Ok (n, st') -> product x s n.
  Proof.
    intros Hn E. destruct x as [i0 v0|i0 s0 kd0|i0 l0|i0 a0|i0 a0 b0|i0 a0 b0|i0 a0]; try (destruct Hn; fail);
      (apply (head_product _ s (mk_mul _ s)) in E as [E|[E _]]; [exact E|eapply mk_mul_product; exact E]).
  Qed.
  (** A constant times each term of a sum. *)
  Definition spread (left : bool) (s : node F) (l l' : list (node F)) : Prop :=
    is_constant s = true /\ ~ isc s 0 /\ Forall2 (fun x y => notsum x -> product (if left then s else x) (if left then x else s) y) l l'.
  Lemma mapM_spread (fm : node F -> M (node F)) Q l : (forall x k y k', fm x k = Ok (y, k') -> (Q x y : Prop)) -> forall k l' k', mapM fm l k = Ok (l', k') -> Forall2 Q l l'.
  Proof.
    intros Hq. induction l as [|x l IH]; intros k l' k' E.
    - injection E as <- _. constructor.
    - apply mapM_cons_ok in E as (y & k1 & ys & E1 & E2 & ->). constructor; eauto.
  Qed.
  Lemma mul_nn_cases p q n st st' : @mul_nn F NF p q st = Ok (n, st') ->
    product p q n \/ (exists i l j l', q = NAdd i l /\ n = NAdd j l' /\ spread true p l l') \/ (exists i l j l', p = NAdd i l /\ n = NAdd j l' /\ spread false q l l').
  Proof.
    intros E. unfold mul_nn in E. apply head_product in E as [E|(E & Np & Nq)]; [left; exact E|].
    assert (Mul : mk_mul p q st = Ok (n, st') -> product p q n) by apply mk_mul_product.
    destruct p as [i v|i sn kd|i ar|i x|i x y|i x y|i x]; try (left; exact (Mul E));
      destruct q as [i' w|i' sn' kd'|i' ar'|i' x'|i' x' y'|i' x' y'|i' x']; try (left; exact (Mul E)).
    - right; left. apply bind_ok in E as (l' & k1 & E1 & E2). unfold mk_add in E2. destruct (length l' <? 2)%nat; [discriminate|]. injection E2 as <- _.
      exists i', ar', k1, l'. split; [reflexivity|]. split; [reflexivity|]. split; [reflexivity|]. split; [exact Np|].
      eapply mapM_spread; [|exact E1]. intros x k y k' Ey Hx. eapply cn_product; [exact Hx|exact Ey].
    - right; right. apply bind_ok in E as (l' & k1 & E1 & E2). unfold mk_add in E2. destruct (length l' <? 2)%nat; [discriminate|]. injection E2 as <- _.
      exists i, ar, k1, l'. split; [reflexivity|]. split; [reflexivity|]. split; [reflexivity|]. split; [exact Nq|].
      eapply mapM_spread; [|exact E1]. intros x k y k' Ey Hx. eapply nc_product; [exact Hx|exact Ey].
  Qed.

  Lemma product_value p q n f m k g l j : product p q n -> vrel p f m k -> vrel q g l j -> vrel n (f * g) (m * l + tiny) (k + j + 1).
  Proof.
    intros Hp Rp Rq. pose proof (vr_abs _ _ _ _ Rp) as Ap. pose proof (vr_abs _ _ _ _ Rq) as Aq. pose proof tiny_pos as Ht. pose proof (abs_mul _ _ _ _ Ap Aq) as Am.
    assert (Weak : forall x k', Rabs (x - f * g) <= gam k' * (m * l) -> (k' <= k + j + 1)%nat -> Rabs (x - f * g) <= gam (k + j + 1) * (m * l + tiny)).
    { intros x k' Hx Hk. pose proof (near_k _ _ _ _ _ Am Hx Hk) as G. pose proof (gam_pos (k + j + 1)). assert (0 <= gam (k + j + 1) * tiny) by (apply Rmult_le_pos; lra). lra. }
    constructor; [|lra|].
    - intros i v E. destruct Hp as [i0 _|_|_|i1 i2 i0 v0 w0 -> ->|i0].
      + injection E as <- <-. apply fin_flit0.
      + exact (vr_vb _ _ _ _ Rq i v E).
      + exact (vr_vb _ _ _ _ Rp i v E).
      + injection E as <- <-. apply mul_vb; [exact (vr_vb _ _ _ _ Rp _ _ eq_refl)|exact (vr_vb _ _ _ _ Rq _ _ eq_refl)].
      + discriminate E.
    - intros Hf. destruct Hp as [i0 [Hz|Hz]|Hz|Hz|i1 i2 i0 v0 w0 -> ->|i0].
      + destruct (isc_val _ 0 _ _ _ ltac:(cbn; lia) Hz Rp) as (_ & _ & _ & G). cbn [real_value]. change (float_value (flit 0)) with 0.
        eapply Weak; [apply near_zero; [exact Ap|exact G|exact Aq]|lia].
      + destruct (isc_val _ 0 _ _ _ ltac:(cbn; lia) Hz Rq) as (_ & _ & _ & G). cbn [real_value]. change (float_value (flit 0)) with 0.
        eapply Weak; [rewrite (Rmult_comm f), (Rmult_comm m); apply near_zero; [exact Aq|exact G|exact Ap]|lia].
      + destruct (isc_val _ 1 _ _ _ ltac:(cbn; lia) Hz Rp) as (_ & _ & _ & G). eapply Weak; [rewrite <- (Rmult_1_l (V q)); apply near_mul; [exact Ap|exact G|exact Aq|exact (vr_err _ _ _ _ Rq Hf)]|lia].
      + destruct (isc_val _ 1 _ _ _ ltac:(cbn; lia) Hz Rq) as (_ & _ & _ & G). eapply Weak; [rewrite <- (Rmult_1_r (V p)); apply near_mul; [exact Ap|exact (vr_err _ _ _ _ Rp Hf)|exact Aq|exact G]|lia].
      + pose proof (vr_vb _ _ _ _ Rp _ _ eq_refl) as Hv. pose proof (vr_vb _ _ _ _ Rq _ _ eq_refl) as Hw. apply fc_const in Hf.
        destruct (mul_back _ _ Hv Hw Hf) as (Fv & Fw & Ew). pose proof (vr_err _ _ _ _ Rp (const_fc _ _ Fv)) as G1. pose proof (vr_err _ _ _ _ Rq (const_fc _ _ Fw)) as G2.
        cbn [real_value] in *. rewrite !float_value_fval in *. rewrite Ew, Nat.add_1_r.
        apply near_round with (fval v0 * fval w0); [exact Am|apply near_mul; auto|lra|rewrite <- eta_bpow, <- u_bpow; apply any_error].
      + cbn [real_value]. eapply Weak; [apply (near_mul _ _ _ k _ _ _ j); [exact Ap| |exact Aq|]|lia].
        * apply (vr_err _ _ _ _ Rp). eapply fc_arg; [exact Hf|left; reflexivity].
        * apply (vr_err _ _ _ _ Rq). eapply fc_arg; [exact Hf|right; left; reflexivity].
  Qed.
  Lemma product_slope_ok p q n f m k g l j f' m' k' g' l' j' : product p q n -> vrel p f m k -> vrel q g l j -> goodd p f' m' k' -> goodd q g' l' j' ->
    goodd n (f' * g + f * g') (m' * l + m * l') (k' + j + (k + j')).
  Proof.
    intros Hp Rp Rq [Ap' Ep] [Aq' Eq]. pose proof (vr_abs _ _ _ _ Rp) as Ap. pose proof (vr_abs _ _ _ _ Rq) as Aq.
    pose proof (abs_mul _ _ _ _ Ap' Aq) as A1. pose proof (abs_mul _ _ _ _ Ap Aq') as A2. split; [apply abs_add; assumption|].
    assert (Both : forall x y, Rabs (x - f' * g) <= gam (k' + j) * (m' * l) -> Rabs (y - f * g') <= gam (k + j') * (m * l') ->
      Rabs (x + y - (f' * g + f * g')) <= gam (k' + j + (k + j')) * (m' * l + m * l')) by (intros x y H1 H2; apply near_sum; assumption).
    assert (Zl : forall a b k0, Rabs (0 - a) <= gam k0 * b -> Rabs a <= b -> (k0 <= k' + j)%nat -> Rabs (0 - a) <= gam (k' + j) * b) by (intros; eapply near_k; eauto).
    assert (Cd : forall z, isc p z -> Rabs (0 - f') <= gam k' * m').
    { intros z (i & v & -> & _). apply Ep. constructor; [left; reflexivity|constructor]. }
    assert (Cq : forall z, isc q z -> Rabs (0 - g') <= gam j' * l').
    { intros z (i & v & -> & _). apply Eq. constructor; [left; reflexivity|constructor]. }
    assert (Z1 : Rabs (0 - f') <= gam k' * m' -> Rabs (0 - f' * g) <= gam (k' + j) * (m' * l)).
    { intros G. eapply near_k; [exact A1|apply near_zero; [exact Ap'|exact G|exact Aq]|lia]. }
    assert (Z2 : Rabs (0 - g') <= gam j' * l' -> Rabs (0 - f * g') <= gam (k + j') * (m * l')).
    { intros G. eapply near_k; [exact A2|rewrite (Rmult_comm f), (Rmult_comm m); apply near_zero; [exact Aq'|exact G|exact Ap]|lia]. }
    assert (Z3 : Rabs (0 - f) <= gam k * m -> Rabs (0 - f * g') <= gam (k + j') * (m * l')).
    { intros G. eapply near_k; [exact A2|apply near_zero; [exact Ap|exact G|exact Aq']|lia]. }
    assert (Z4 : Rabs (0 - g) <= gam j * l -> Rabs (0 - f' * g) <= gam (k' + j) * (m' * l)).
    { intros G. eapply near_k; [exact A1|rewrite (Rmult_comm f'), (Rmult_comm m'); apply near_zero; [exact Aq|exact G|exact Ap']|lia]. }
    intros Hf. destruct Hp as [i0 [Hz|Hz]|Hz|Hz|i1 i2 i0 v0 w0 -> ->|i0].
    - destruct (isc_val _ 0 _ _ _ ltac:(cbn; lia) Hz Rp) as (_ & _ & _ & G). cbn [dval]. replace 0 with (0 + 0) by ring. apply Both; auto. apply Z1. eapply Cd; exact Hz.
    - destruct (isc_val _ 0 _ _ _ ltac:(cbn; lia) Hz Rq) as (_ & _ & _ & G). cbn [dval]. replace 0 with (0 + 0) by ring. apply Both; auto. apply Z2. eapply Cq; exact Hz.
    - destruct (isc_val _ 1 _ _ _ ltac:(cbn; lia) Hz Rp) as (_ & _ & _ & G). replace (D q) with (0 + 1 * D q) by ring. apply Both; [apply Z1; eapply Cd; exact Hz|].
      apply near_mul; auto.
    - destruct (isc_val _ 1 _ _ _ ltac:(cbn; lia) Hz Rq) as (_ & _ & _ & G). replace (D p) with (D p * 1 + 0) by ring. apply Both; [|apply Z2; eapply Cq; exact Hz].
      apply near_mul; auto.
    - cbn [dval]. replace 0 with (0 + 0) by ring. apply Both; [apply Z1; apply Ep|apply Z2; apply Eq]; (constructor; [left; reflexivity|constructor]).
    - cbn [dval]. assert (Hc : finite_constants (NMul i0 p q)).
      { inversion Hf as [|x lx [Hc|Hc] _]; subst; [discriminate Hc|exact Hc]. }
      assert (Fp : finite_constants p) by (eapply fc_arg; [exact Hc|left; reflexivity]).
      assert (Fq : finite_constants q) by (eapply fc_arg; [exact Hc|right; left; reflexivity]).
      apply Both; apply near_mul; auto; try (apply Ep, fc_plain; exact Fp); try (apply Eq, fc_plain; exact Fq); try (apply (vr_err _ _ _ _ Rp Fp)); try (apply (vr_err _ _ _ _ Rq Fq)).
  Qed.
  Lemma spread_value (left : bool) s l l' f m k j es : vrel s f m k -> is_constant s = true -> Forall2 (pv j) l es ->
    Forall2 (fun x y => notsum x -> product (if left then s else x) (if left then x else s) y) l l' ->
    Forall2 (pv (k + j + 1)) l' (map (fun e => (f * fst e, m * snd e + tiny)) es).
  Proof.
    intros Rs Cs Hl. revert l'. induction Hl as [|x e l es [Nx Rx] Hl IH]; intros l' Hp; inversion Hp as [|x' y lx ly Hy Hp']; subst; cbn [map]; constructor; auto.
    specialize (Hy Nx). split.
    - assert (Ns : notsum s) by (destruct s; try discriminate Cs; exact I). destruct left; destruct Hy; try exact I; assumption.
    - cbn [fst snd]. destruct left; [exact (product_value _ _ _ _ _ _ _ _ _ Hy Rs Rx)|].
      rewrite (Rmult_comm f), (Rmult_comm m), (Nat.add_comm k). exact (product_value _ _ _ _ _ _ _ _ _ Hy Rx Rs).
  Qed.
  Lemma spread_tot (f m : R) (es : list (R * R)) :
    tot (map fst (map (fun e => (f * fst e, m * snd e + tiny)) es)) = f * tot (map fst es) /\
    tot (map snd (map (fun e => (f * fst e, m * snd e + tiny)) es)) = m * tot (map snd es) + INR (length es) * tiny.
  Proof.
    induction es as [|e es [IH1 IH2]]; [cbn; lra|]. cbn [map tot fst snd]. rewrite IH1, IH2. cbn [length]. rewrite S_INR. lra.
  Qed.
  Lemma spread_goodv (left : bool) s n l l' f m k g ls j : vrel s f m k -> is_constant s = true -> goodv n g ls j -> terms n = l ->
    Forall2 (fun x y => notsum x -> product (if left then s else x) (if left then x else s) y) l l' ->
    forall x, terms x = l' -> goodv x (f * g) (m * ls + INR (j + 1) * tiny) (k + j + 1).
  Proof.
    intros Rs Cs (es & H1 & H2 & -> & H4 & H5) El Hp x Ex. rewrite El in *. pose proof (spread_value _ _ _ _ _ _ _ _ _ Rs Cs H2 Hp) as G.
    destruct (spread_tot f m es) as [T1 T2]. pose proof (F2_len _ _ _ H2) as L1. pose proof (F2_len _ _ _ Hp) as L2.
    exists (map (fun e => (f * fst e, m * snd e + tiny)) es). rewrite Ex. split.
    { intros Z. rewrite Z in L2. destruct l; [apply H1; reflexivity|discriminate L2]. }
    split; [exact G|]. rewrite T1, T2. split; [reflexivity|]. split; [|lia].
    pose proof (vr_abs _ _ _ _ Rs). pose proof (Rabs_pos f). apply Rplus_le_compat; [apply Rmult_le_compat_l; lra|].
    apply Rmult_le_compat_r; [pose proof tiny_pos; lra|]. apply le_INR. lia.
  Qed.
  Lemma spread_term (left : bool) s x y : const_vb s -> is_constant s = true -> ~ isc s 0 -> product (if left then s else x) (if left then x else s) y -> plain y ->
    plain x /\ D y = V s * D x /\ (finite_constants s \/ is_constant x = true).
  Proof.
    intros Vs Cs Ns Hp Hy. assert (Ds : D s = 0) by (destruct s; try discriminate Cs; reflexivity).
    assert (One : isc s 1 -> finite_constants s /\ V s = 1).
    { intros (i & v & -> & E). destruct (neqb_fin v 1 ltac:(cbn; lia) (Vs i v eq_refl) E) as [Fv Vv]. split; [apply const_fc; exact Fv|]. cbn [real_value]. rewrite float_value_fval. exact Vv. }
    assert (Cx : forall z, isc x z -> is_constant x = true) by (intros z (i & v & -> & _); reflexivity).
    assert (Cd : is_constant x = true -> D x = 0) by (intros Q; destruct x; try discriminate Q; reflexivity).
    assert (Cn : is_constant x = true -> D y = 0 -> plain x /\ D y = V s * D x /\ (finite_constants s \/ is_constant x = true)).
    { intros Q Q2. split; [left; exact Q|]. split; [|right; exact Q]. rewrite Q2, (Cd Q). ring. }
    assert (Fm : forall i a b, plain (NMul i a b) -> finite_constants a /\ finite_constants b).
    { intros i a b [Q|Q]; [discriminate Q|]. split; (eapply fc_arg; [exact Q|cbn; auto]). }
    destruct left.
    - destruct Hp as [i0 [Hz|Hz]|Hz|Hz|i1 i2 i0 v0 w0 E1 E2|i0].
      + destruct (Ns Hz).
      + apply Cn; [exact (Cx _ Hz)|reflexivity].
      + destruct (One Hz) as [Q1 Q2]. split; [exact Hy|]. split; [rewrite Q2; ring|left; exact Q1].
      + apply Cn; [exact (Cx _ Hz)|exact Ds].
      + apply Cn; [rewrite E2; reflexivity|reflexivity].
      + destruct (Fm _ _ _ Hy) as [Q1 Q2]. split; [right; exact Q2|]. split; [cbn [dval]; rewrite Ds; ring|left; exact Q1].
    - destruct Hp as [i0 [Hz|Hz]|Hz|Hz|i1 i2 i0 v0 w0 E1 E2|i0].
      + apply Cn; [exact (Cx _ Hz)|reflexivity].
      + destruct (Ns Hz).
      + apply Cn; [exact (Cx _ Hz)|exact Ds].
      + destruct (One Hz) as [Q1 Q2]. split; [exact Hy|]. split; [rewrite Q2; ring|left; exact Q1].
      + apply Cn; [rewrite E1; reflexivity|reflexivity].
      + destruct (Fm _ _ _ Hy) as [Q1 Q2]. split; [right; exact Q1|]. split; [cbn [dval]; rewrite Ds; ring|left; exact Q2].
  Qed.
  Lemma spread_slope (left : bool) s l l' : const_vb s -> is_constant s = true -> ~ isc s 0 -> Forall notsum l ->
    Forall2 (fun x y => notsum x -> product (if left then s else x) (if left then x else s) y) l l' -> Forall plain l' ->
    Forall plain l /\ tot (map (fun t => D t) l') = V s * tot (map (fun t => D t) l) /\ (finite_constants s \/ tot (map (fun t => D t) l) = 0).
  Proof.
    intros Vs Cs Ns Hn Hp. revert Hn. induction Hp as [|x y l l' Hy Hp IH]; intros Hn Hf.
    - cbn [map tot]. split; [constructor|]. split; [ring|right; reflexivity].
    - destruct (spread_term left s x y Vs Cs Ns (Hy (Forall_inv Hn)) (Forall_inv Hf)) as (Q1 & Q2 & Q3).
      destruct (IH (Forall_inv_tail Hn) (Forall_inv_tail Hf)) as (R1 & R2 & R3). cbn [map tot]. rewrite Q2, R2. split; [constructor; assumption|].
      split; [ring|]. destruct Q3 as [Q3|Q3]; [left; exact Q3|]. destruct R3 as [R3|R3]; [left; exact R3|]. right. rewrite R3.
      destruct x; try discriminate Q3. cbn [dval]. ring.
  Qed.
  Lemma pv_notsum k l es : Forall2 (pv k) l es -> Forall notsum l.
  Proof. intros Hl. induction Hl as [|x e l es [Hx _] Hl IH]; constructor; assumption. Qed.
  Lemma spread_goodd (left : bool) s i j l l' f m k g ls jv f' m' k' g' ls' j' : vrel s f m k -> goodd s f' m' k' -> goodv (NAdd i l) g ls jv -> goodd (NAdd i l) g' ls' j' ->
    spread left s l l' -> goodd (NAdd j l') (f' * g + f * g') (m' * ls + m * ls') (k' + jv + (k + j')).
  Proof.
    intros Rs [As' Es'] Gq [Aq' Eq'] (Cs & Ns & Hp). pose proof (vr_abs _ _ _ _ Rs) as As. pose proof (goodv_vrel _ _ _ _ Gq) as [_ Aq _].
    split; [apply abs_add; apply abs_mul; assumption|]. intros Hf. destruct Gq as (es & _ & H2 & _). cbn [terms] in H2.
    destruct (spread_slope left s l l' (vr_vb _ _ _ _ Rs) Cs Ns (pv_notsum _ _ _ H2) Hp Hf) as (Q1 & Q2 & Q3).
    assert (Es : Rabs (0 - f') <= gam k' * m').
    { destruct s as [i0 v0| | | | | | ]; try discriminate Cs. apply Es'. constructor; [left; reflexivity|constructor]. }
    specialize (Eq' Q1). rewrite slope_terms in Eq' |- *. cbn [terms] in *. rewrite Q2.
    replace (V s * tot (map (fun t => D t) l)) with (0 + V s * tot (map (fun t => D t) l)) by ring. apply near_sum.
    - apply abs_mul; assumption.
    - eapply near_k; [apply abs_mul; eassumption|apply near_zero; [exact As'|exact Es|exact Aq]|lia].
    - apply abs_mul; assumption.
    - destruct Q3 as [Q3|Q3].
      + apply near_mul; [exact As|exact (vr_err _ _ _ _ Rs Q3)|exact Aq'|exact Eq'].
      + rewrite Q3 in *. rewrite Rmult_0_r. eapply near_k; [apply abs_mul; eassumption|rewrite (Rmult_comm f), (Rmult_comm m); apply near_zero; [exact Aq'|exact Eq'|exact As]|lia].
  Qed.
  Lemma mul_nn_second p q n st st' f m k g l j f' m' k' g' l' j' : @mul_nn F NF p q st = Ok (n, st') ->
    goodv p f m k -> goodv q g l j -> goodd p f' m' k' -> goodd q g' l' j' ->
    goodv n (f * g) (m * l + many k j) (k + j + 1) /\ goodd n (f' * g + f * g') (m' * l + m * l') (k' + j + (k + j')).
  Proof.
    intros E Gp Gq Dp Dq. pose proof (goodv_vrel _ _ _ _ Gp) as Rp. pose proof (goodv_vrel _ _ _ _ Gq) as Rq. pose proof (many_1 k j) as Hm.
    apply mul_nn_cases in E as [Hp|[(i & l0 & i' & l1 & -> & -> & Hs)|(i & l0 & i' & l1 & -> & -> & Hs)]].
    - split; [|eapply product_slope_ok; eassumption]. pose proof (product_value _ _ _ _ _ _ _ _ _ Hp Rp Rq) as Rn.
      assert (Single : notsum n -> goodv n (f * g) (m * l + many k j) (k + j + 1)).
      { intros Hn. apply vrel_goodv; [exact Hn|]. eapply vrel_weak; [exact Rn|lra|lia]. }
      assert (Self : forall (left : bool) s x, is_constant s = true -> (forall t, product (if left then s else t) (if left then t else s) t) ->
        Forall2 (fun x y => notsum x -> product (if left then s else x) (if left then x else s) y) (terms x) (terms x)).
      { intros left s x _ Ht. generalize (terms x). intros lx. induction lx; constructor; auto. }
      destruct Hp as [i0 Hz|Hz|Hz|i1 i2 i0 v0 w0 E1 E2|i0]; try (apply Single; exact I).
      + assert (Cp : is_constant p = true) by (destruct Hz as (i & v & -> & _); reflexivity).
        eapply goodv_weak; [eapply (spread_goodv true p q (terms q) (terms q)); [exact Rp|exact Cp|exact Gq|reflexivity|apply (Self true); [exact Cp|intros t; apply pr_onel; exact Hz]|reflexivity]| |lia].
        apply Rplus_le_compat_l. apply many_r. lia.
      + assert (Cp : is_constant q = true) by (destruct Hz as (i & v & -> & _); reflexivity). rewrite (Rmult_comm f), (Rmult_comm m).
        eapply goodv_weak; [eapply (spread_goodv false q p (terms p) (terms p)); [exact Rq|exact Cp|exact Gp|reflexivity|apply (Self false); [exact Cp|intros t; apply pr_oner; exact Hz]|reflexivity]| |lia].
        apply Rplus_le_compat_l. apply many_l. lia.
    - split; [|eapply spread_goodd; eassumption]. destruct Hs as (Cs & Ns & Hp).
      eapply goodv_weak; [eapply (spread_goodv true p _ _ _ _ _ _ _ _ _ Rp Cs Gq eq_refl Hp); reflexivity| |lia]. apply Rplus_le_compat_l. apply many_r. lia.
    - split.
      + destruct Hs as (Cs & Ns & Hp). rewrite (Rmult_comm f), (Rmult_comm m).
        eapply goodv_weak; [eapply (spread_goodv false q _ _ _ _ _ _ _ _ _ Rq Cs Gp eq_refl Hp); reflexivity| |lia]. apply Rplus_le_compat_l. apply many_l. lia.
      + pose proof (spread_goodd false q i i' l0 l1 _ _ _ _ _ _ _ _ _ _ _ _ Rq Dq Gp Dp Hs) as G.
        replace (f' * g + f * g') with (g' * f + g * f') by ring. eapply goodd_weak; [exact G|lra|lia].
  Qed.
  (** *** The factors of a path. *)
  Definition good2 (p : node F) (a a' : est) : Prop :=
    goodv p (e_val a r) (e_mag a r) (e_ops a) /\ goodd p (e_val a' r) (e_mag a' r) (e_ops a').
  Definition factor (d : node F) (q : est) (s : R) : Prop := goodv d (e_val q r) (e_mag q r) (e_ops q) /\ D d = s.
  Lemma step_good p d n st st' a a' q s : @mul_nn F NF p d st = Ok (n, st') -> good2 p a a' -> factor d q (s r) -> good2 n (e_mul a q) (product_slope a a' q s).
  Proof.
    intros E [Gp Dp] [Gd Ds].
    assert (Dd : goodd d (s r) (Rabs (s r)) 0).
    { split; [lra|]. intros _. rewrite Ds, Rminus_diag_eq, Rabs_R0 by reflexivity. apply Rmult_le_pos; [apply gam_pos|apply Rabs_pos]. }
    destruct (mul_nn_second _ _ _ _ _ _ _ _ _ _ _ _ _ _ _ _ _ E Gp Gd Dp Dd) as [G1 G2]. split; [exact G1|].
    eapply goodd_weak; [exact G2| |cbn; lia]. cbn [product_slope e_add e_mul e_exact e_mag e_ops]. pose proof tiny_pos.
    assert (Ht : forall k, 0 <= INR k * tiny) by (intros k; apply Rmult_le_pos; [apply pos_INR|lra]).
    pose proof (Ht ((e_ops a' + 1) * (e_ops q + 1))%nat). pose proof (Ht ((e_ops a + 1) * (0 + 1))%nat). lra.
  Qed.
  Lemma exact_vrel n f m k : const_vb n -> V n = f -> Rabs f <= m -> vrel n f m k.
  Proof.
    intros Hv E Ha. constructor; [exact Hv|exact Ha|]. intros _. rewrite E, Rminus_diag_eq, Rabs_R0 by reflexivity.
    apply Rmult_le_pos; [apply gam_pos|]. pose proof (Rabs_pos f). lra.
  Qed.
  Lemma exact_factor d q s : notsum d -> const_vb d -> V d = e_val q r -> Rabs (e_val q r) <= e_mag q r -> D d = s -> factor d q s.
  Proof. intros Hn Hv E Ha Ed. split; [|exact Ed]. apply vrel_goodv; [exact Hn|]. apply exact_vrel; assumption. Qed.
  Lemma est_mag n : S n -> okn n -> Rabs (e_val (est_of n) r) <= e_mag (est_of n) r.
  Proof. intros Hs Ha. exact (sv_abs _ _ _ _ (good_sv _ _ _ _ _ _ _ (est_good fsin fcos vs r Hr S Hclosed Hcan true n Hs Ha))). Qed.
  Lemma okn_vb n : okn n -> const_vb n.
  Proof. intros Ha i v ->. exact (proj1 Ha). Qed.
  Lemma built_factor n : S n -> okn n -> factor n (est_of n) (D n).
  Proof.
    intros Hs Ha. assert (Hn : notsum n \/ exists i l, n = NAdd i l) by (destruct n; cbn; eauto). destruct Hn as [Hn|(i & l & ->)].
    - apply exact_factor; [exact Hn|exact (okn_vb _ Ha)|symmetry; apply est_value|exact (est_mag _ Hs Ha)|reflexivity].
    - split; [|reflexivity]. pose proof Ha as Ha'. apply fine_args in Ha'. rewrite Forall_forall in Ha'.
      assert (Hl : (2 <= length l)%nat) by (destruct (Hcan _ Hs _ (sub_refl _)) as (_ & Hl & _); exact Hl).
      assert (Hin : forall a, In a l -> pv (e_ops (est_of (NAdd i l))) a (e_val (est_of a) r, e_mag (est_of a) r)).
      { intros a Hin. assert (Sa : S a) by (apply (Hclosed _ _ Hs); exact Hin). split; [exact (args_notsum fsin fcos S Hcan i l a Hs Hin)|].
        cbn [fst snd]. apply exact_vrel; [exact (okn_vb _ (Ha' a Hin))|symmetry; apply est_value|exact (est_mag a Sa (Ha' a Hin))]. }
      exists (map (fun a => (e_val (est_of a) r, e_mag (est_of a) r)) l). cbn [terms]. split; [intros ->; cbn in Hl; lia|]. split; [|split; [|split]].
      + clear Hl Ha Ha' Hs. generalize dependent (e_ops (est_of (NAdd i l))). intros K Hin. induction l as [|x l IHl]; constructor; [apply Hin; left; reflexivity|].
        apply IHl. intros a Ha. apply Hin. right. exact Ha.
      + cbn [est_of]. rewrite e_sum_val, !map_map. reflexivity.
      + cbn [est_of]. rewrite e_sum_mag, !map_map. cbn [snd]. lra.
      + cbn [est_of]. rewrite e_sum_ops, map_map. clear. induction l as [|x l IHl]; cbn [map sumN length]; lia.
  Qed.
  Lemma one_factor k : factor (NConst k (flit 1)) (e_const (flit 1)) 0.
  Proof.
    apply exact_factor; [exact I| |reflexivity|cbn [e_const e_val e_mag]; lra|reflexivity].
    intros i v E. injection E as _ <-. apply (flit_int 1 ltac:(cbn; lia)).
  Qed.
  (** Multiplying by the constant one changes nothing. *)
  Lemma one_same p i n st st' a a' : good2 p a a' -> @mul_nn F NF p (NConst i (flit 1)) st = Ok (n, st') -> good2 n a a'.
  Proof.
    intros [Gp Dp] E. pose proof (goodv_vrel _ _ _ _ Gp) as Rp. destruct (flit_int 1 ltac:(cbn; lia)) as [F1 V1].
    assert (Same : forall c z j, isc p z -> vb c -> fval c = IZR z -> (Z.abs z <= 2 ^ 53)%Z -> good2 (NConst j c) a a').
    { intros c z j Hp0 Vc Ec Hz. destruct (isc_val _ z _ _ _ Hz Hp0 Rp) as (Fp & Vp & Dp0 & G). split.
      - apply vrel_goodv; [exact I|]. constructor; [intros j' v Q; injection Q as _ <-; exact Vc|exact (vr_abs _ _ _ _ Rp)|]. intros _. cbn [real_value].
        rewrite float_value_fval, Ec. exact G.
      - destruct Dp as [Ap Ep]. split; [exact Ap|]. intros _. rewrite Dp0 in Ep. apply Ep. destruct Hp0 as (i0 & v0 & -> & _). constructor; [left; reflexivity|constructor]. }
    unfold mul_nn in E. change (@n0 F NF) with (flit 0) in E. change (@n1 F NF) with (flit 1) in E.
    replace (is_constant_with_value (NConst i (flit 1)) (flit 0)) with false in E by reflexivity.
    replace (is_constant_with_value (NConst i (flit 1)) (flit 1)) with true in E by reflexivity. rewrite orb_false_r in E.
    destruct (is_constant_with_value p (flit 0)) eqn:E0.
    { unfold mk_const in E. injection E as <- _. exact (Same (flit 0) 0%Z st (isc_iff _ _ E0) (proj1 fin_flit0) fval_flit0 ltac:(cbn; lia)). }
    destruct (is_constant_with_value p (flit 1)) eqn:E1; unfold ret in E; injection E as <- _; [|split; assumption].
    exact (Same (flit 1) 1%Z i (isc_iff _ _ E1) (proj1 F1) V1 ltac:(cbn; lia)).
  Qed.

  (** Arguments of sines and cosines are not constants. *)
  Lemma inner_nonconst n a : S n -> arguments n = [a] -> is_constant n = false -> is_constant a = false.
  Proof.
    intros Hs Ha Hc. destruct (is_constant a) eqn:Q; [exfalso|reflexivity]. destruct (Hcan _ Hs _ (sub_refl _)) as ([Hv|(v & Hv & Hsub)] & _); [congruence|].
    inversion Hsub as [|s c n' Hin Hs']; subst.
    - destruct n; try discriminate Hv; discriminate Ha.
    - rewrite Ha in Hin. destruct Hin as [<- |[]]. inversion Hs' as [|s2 c2' n2 Hin2 _]; subst; [destruct a; try discriminate Q; discriminate Hv|].
      destruct a; try discriminate Q. destruct Hin2.
  Qed.
  (** Negation is exact. *)
  Lemma m1_not' : @neqb F NF (@nm1 F NF) (@n0 F NF) = false /\ @neqb F NF (@nm1 F NF) (@n1 F NF) = false.
  Proof. split; reflexivity. Qed.
  Lemma m1_value : float_value (@nm1 F NF) = -1.
  Proof. rewrite float_value_fval. exact (proj2 fin_m1). Qed.
  Lemma m1_const (v : F) : finite64 v -> fin (nmul (@nm1 F NF) v) /\ float_value (nmul (@nm1 F NF) v) = - float_value v.
  Proof.
    intros Hv. apply finite_fin in Hv. pose proof (mul_m1 v (proj1 Hv)) as E. change (nmul (@nm1 F NF) v) with (SFmul 53 1024 (SFopp (flit 1)) v).
    rewrite E, !float_value_fval. destruct (fopp_fin v Hv) as [H1 H2]. split; assumption.
  Qed.
  Definition negated (n x : node F) : Prop := const_vb x /\ V x = - V n /\ D x = - D n.
  Lemma neg_term_value t x k k' : notsum t -> okn t -> @mul_sn F NF (@nm1 F NF) t k = Ok (x, k') -> notsum x /\ negated t x.
  Proof.
    intros Nt Ht E. unfold negated. destruct t as [i w|i sn kd|i ar|i y|i y z|i y z|i y]; try (destruct Nt; fail); cbn [mul_sn is_constant is_constant_with_value] in E.
    { rewrite orb_true_r in E. unfold mk_const in E. injection E as <- _. destruct (m1_const w Ht) as [H1 H2]. split; [exact I|].
      split; [intros j v Q; injection Q as _ <-; exact (proj1 H1)|]. cbn [real_value dval]. split; [exact H2|ring]. }
    all: destruct m1_not' as [M0 M1]; rewrite M0, M1 in E; cbn [orb] in E; injection E as <- _; split; [exact I|];
      split; [intros j v Q; discriminate Q|];
      match goal with |- context [NMul _ (NConst _ ?c) ?t] =>
        change (float_value (@nm1 F NF) * V t = - V t /\ 0 * V t + float_value (@nm1 F NF) * D t = - D t) end; rewrite m1_value; split; ring.
  Qed.
  Lemma neg_value n x k k' : S n -> okn n -> @neg_n F NF n k = Ok (x, k') -> negated n x.
  Proof.
    intros Hs Hn E. assert (E' : @mul_sn F NF (@nm1 F NF) n k = Ok (x, k')).
    { destruct n; exact E. }
    clear E. assert (Ht : notsum n \/ exists i l, n = NAdd i l) by (destruct n; cbn; eauto). destruct Ht as [Ht|(i & l & ->)]; [exact (proj2 (neg_term_value _ _ _ _ Ht Hn E'))|].
    cbn [mul_sn is_constant is_constant_with_value] in E'. destruct m1_not' as [M0 M1]. rewrite M0, M1 in E'. cbn [orb] in E'.
    apply bind_ok in E' as (l' & k1 & E1 & E2). unfold mk_add in E2. destruct (length l' <? 2)%nat; [discriminate|]. injection E2 as <- _.
    split; [intros j v Q; discriminate Q|]. rewrite !(value_terms (NAdd _ _)), !(slope_terms c2 (NAdd _ _)). cbn [terms]. apply fine_args in Hn.
    assert (Hns : Forall notsum l) by (apply Forall_forall; intros a Ha; exact (args_notsum fsin fcos S Hcan i l a Hs Ha)).
    clear Hs. revert l' k k1 E1. induction l as [|t l IH]; intros l' k k1 E1.
    - injection E1 as <- _. cbn. lra.
    - apply mapM_cons_ok in E1 as (y & k2 & ys & E1 & E2 & ->). destruct (neg_term_value _ _ _ _ (Forall_inv Hns) (Forall_inv Hn) E1) as (_ & _ & H1 & H2).
      destruct (IH (Forall_inv_tail Hn) (Forall_inv_tail Hns) _ _ _ E2) as [H3 H4]. cbn [map tot]. rewrite H1, H2, H3, H4. lra.
  Qed.
  (** The factors beside an argument of a sine, a cosine or a quotient. *)
  Lemma cos_factor i a d k k' : S (NSin i a) -> okn (NSin i a) -> @Node.cos_n F NF a k = Ok (d, k') -> factor d (e_cos (est_of a)) (- sin (V a) * D a).
  Proof.
    intros Hs Ha E. assert (Ca : is_constant a = false) by (eapply inner_nonconst; [exact Hs|reflexivity|reflexivity]). destruct Ha as (_ & Hc & Ha).
    assert (Sa : S a) by (apply (Hclosed _ _ Hs); left; reflexivity).
    pose proof (cos_n_good fsin fcos vs r a _ d _ _ Hc (est_good fsin fcos vs r Hr S Hclosed Hcan true a Sa Ha) E) as G. apply good_sv in G.
    assert (Ed : d = NCos k a) by (unfold Node.cos_n in E; destruct a; try discriminate Ca; unfold mk_cos in E; injection E as <- _; reflexivity). subst d.
    apply exact_factor; [exact I|intros j v Q; discriminate Q| |exact (sv_abs _ _ _ _ G)|reflexivity]. cbn [real_value e_cos e_val]. rewrite est_value. reflexivity.
  Qed.
  Lemma sin_factor i a s d k k1 k2 : S (NCos i a) -> okn (NCos i a) -> @Node.sin_n F NF a k = Ok (s, k1) -> @neg_n F NF s k1 = Ok (d, k2) ->
    factor d (e_neg (e_sin (est_of a))) (- cos (V a) * D a).
  Proof.
    intros Hs Ha E E2. assert (Ca : is_constant a = false) by (eapply inner_nonconst; [exact Hs|reflexivity|reflexivity]). destruct Ha as (Hc & _ & Ha).
    assert (Sa : S a) by (apply (Hclosed _ _ Hs); left; reflexivity).
    pose proof (sin_n_good fsin fcos vs r a _ s _ _ Hc (est_good fsin fcos vs r Hr S Hclosed Hcan true a Sa Ha) E) as G.
    pose proof (neg_n_good fsin fcos vs s _ _ _ d _ _ G E2) as Gd. apply good_sv in Gd.
    assert (Es : s = NSin k a) by (unfold Node.sin_n in E; destruct a; try discriminate Ca; unfold mk_sin in E; injection E as <- _; reflexivity). subst s.
    cbn [neg_n mul_sn is_constant is_constant_with_value] in E2. destruct m1_not' as [M0 M1]. rewrite M0, M1 in E2. cbn [orb] in E2. injection E2 as <- _.
    apply exact_factor; [exact I|intros j v Q; discriminate Q| |exact (sv_abs _ _ _ _ Gd)|].
    - cbn [e_neg e_sin e_val]. rewrite est_value. change (float_value (@nm1 F NF) * sin (V a) = - sin (V a)). rewrite m1_value. ring.
    - change (0 * sin (V a) + float_value (@nm1 F NF) * (cos (V a) * D a) = - cos (V a) * D a). rewrite m1_value. ring.
  Qed.
  Lemma const_factor i a j w d k k' : S (NDiv i a (NConst j w)) -> finite64 w -> @div_sn F NF (@n1 F NF) (NConst j w) k = Ok (d, k') ->
    factor d (e_div (e_const (flit 1)) w) 0.
  Proof.
    intros Hs Hw E1. pose proof (div_const fsin fcos S Hcan _ _ _ _ Hs Hw) as Hz. apply finite_fin in Hw.
    destruct (flit_int 1 ltac:(cbn; lia)) as [F1 V1].
    unfold div_sn in E1. change (@n0 F NF) with (flit 0) in E1. change (@n1 F NF) with (flit 1) in E1. pose proof tiny_pos.
    destruct (is_constant_with_value (NConst j w) (flit 0)); [discriminate E1|].
    pose proof (sv_div (flit 1) _ _ 0 w (sv_exact _ F1) Hw Hz) as Sd.
    assert (Hcst : forall c, d = NConst k c -> sv c (fval (flit 1) / fval w) (Rabs (fval (flit 1)) / Rabs (fval w) + tiny) 1 -> factor d (e_div (e_const (flit 1)) w) 0).
    { intros c -> [Vc Ac Ec]. split; [|reflexivity]. apply vrel_goodv; [exact I|]. cbn [e_div e_const e_val e_mag e_ops]. rewrite !float_value_fval.
      constructor; [intros i0 v Q; injection Q as _ <-; exact Vc|exact Ac|]. intros Hf. cbn [real_value]. rewrite float_value_fval. apply Ec. exact (fc_const _ _ Hf). }
    destruct (is_constant_with_value (NConst j w) (flit 1)) eqn:Ew.
    - apply (Hcst (flit 1)); [unfold mk_const in E1; injection E1 as <- _; reflexivity|]. cbn [is_constant_with_value] in Ew.
      destruct (neqb_fin w 1 ltac:(cbn; lia) (proj1 Hw) Ew) as [_ Vw]. rewrite Vw, V1, Rabs_R1. unfold Rdiv. rewrite Rinv_1, Rmult_1_l. constructor; [apply F1|rewrite Rabs_R1; lra|].
      intros _. rewrite V1, Rminus_diag_eq, Rabs_R0 by reflexivity. apply Rmult_le_pos; [apply gam_pos|lra].
    - apply (Hcst (SFdiv 53 1024 (flit 1) w)); [|exact Sd]. cbn [is_constant] in E1. replace (@neqb F NF (flit 1) (flit 0)) with false in E1 by reflexivity.
      unfold mk_const in E1. injection E1 as <- _. reflexivity.
  Qed.
  Lemma inverse_factor b d k k' : S b -> okn b -> is_constant b = false -> safe_denominator (ev b) (est_of b) r -> @div_sn F NF (@n1 F NF) b k = Ok (d, k') ->
    factor d (e_quot (e_const (flit 1)) (est_of b)) (- D b / (V b * V b)).
  Proof.
    intros Sb Hb Cb Hd E. pose proof (inverse_good fsin fcos vs r b _ d _ _ Cb (est_good fsin fcos vs r Hr S Hclosed Hcan true b Sb Hb) Hd E) as G. apply good_sv in G.
    unfold div_sn in E. assert (Cw : forall v, is_constant_with_value b v = false) by (intros v; destruct b; try reflexivity; discriminate Cb).
    rewrite !Cw, Cb in E. replace (@neqb F NF (@n1 F NF) (@n0 F NF)) with false in E by reflexivity.
    assert (Ed : exists i j, d = NDiv i (NConst j (flit 1)) b) by (injection E as <- _; eauto). clear E. destruct Ed as (i & j & ->).
    apply exact_factor; [exact I|intros i0 v Q; discriminate Q| |exact (sv_abs _ _ _ _ G)|].
    - cbn [e_quot e_const e_val real_value]. rewrite est_value. reflexivity.
    - rewrite dval_div by exact Cb. cbn [real_value dval]. rewrite one_value. unfold Rdiv. ring.
  Qed.
  Lemma square_factor a b d k k' : S a -> S b -> okn a -> okn b -> is_constant b = false ->
    safe_denominator (SFmul 53 1024 (ev b) (ev b)) (e_mul (est_of b) (est_of b)) r ->
    bind (@neg_n F NF a) (fun x => bind (@mul_nn F NF b b) (fun y => @div_nn F NF x y)) k = Ok (d, k') ->
    factor d (e_quot (e_neg (est_of a)) (e_mul (est_of b) (est_of b))) ((2 * V a * D b - D a * V b) / (V b * V b * V b)).
  Proof.
    intros Sa Sb Ha Hb Cb Hd E.
    pose proof (square_div_good fsin fcos vs r a b _ _ d _ _ Cb (est_good fsin fcos vs r Hr S Hclosed Hcan true a Sa Ha) (est_good fsin fcos vs r Hr S Hclosed Hcan true b Sb Hb) Hd E) as G.
    apply good_sv in G. apply bind_ok in E as (x & k1 & E1 & E). apply bind_ok in E as (y & k2 & E2 & E3).
    destruct (neg_value a x _ _ Sa Ha E1) as (Vx & Ex & Dx).
    assert (Hy : exists i, y = NMul i b b).
    { destruct b as [i w|i s kd|i l|i z|i z z'|i z z'|i z]; try discriminate Cb; cbn in E2; injection E2 as <- _; eauto. }
    destruct Hy as [i ->]. assert (Nb : V b <> 0).
    { destruct Hd as (_ & Hn & _). cbn [e_mul e_val] in Hn. rewrite est_value in Hn. intros Z. apply Hn. rewrite Z. ring. }
    unfold div_nn in E3. cbn [is_constant_with_value is_constant] in E3. rewrite andb_false_r in E3. change (@n0 F NF) with (flit 0) in E3.
    assert (Ev : e_val (e_quot (e_neg (est_of a)) (e_mul (est_of b) (est_of b))) r = - V a / (V b * V b)).
    { cbn [e_quot e_neg e_mul e_val]. rewrite !est_value. reflexivity. }
    destruct (is_constant_with_value x (flit 0)) eqn:Ez.
    - unfold mk_const in E3. pose proof (f_equal (fun q => match q with Ok (z, _) => z | Panic _ => d end) E3) as Ed. change (NConst k2 (flit 0) = d) in Ed. subst d. clear E3.
      apply isc_iff in Ez as (j & v & -> & Ez). destruct (neqb_fin v 0 ltac:(cbn; lia) (Vx _ _ eq_refl) Ez) as [_ V0].
      cbn [real_value dval] in Ex, Dx. rewrite float_value_fval, V0 in Ex. assert (Za : V a = 0) by lra. assert (Zd : D a = 0) by lra.
      apply exact_factor; [exact I|intros i0 v0 Q; injection Q as _ <-; apply fin_flit0| |exact (sv_abs _ _ _ _ G)|].
      + rewrite Ev, Za. change (float_value (flit 0) = - 0 / (V b * V b)). change (float_value (flit 0)) with 0. field. exact Nb.
      + rewrite Za, Zd. cbn [dval]. field. exact Nb.
    - unfold mk_div in E3. injection E3 as <- _. apply exact_factor; [exact I|intros i0 v0 Q; discriminate Q| |exact (sv_abs _ _ _ _ G)|].
      + rewrite Ev. cbn [real_value]. rewrite Ex. reflexivity.
      + rewrite dval_div by reflexivity. cbn [real_value dval]. rewrite Ex, Dx. field. exact Nb.
  Qed.

  (** *** Paths *)
  Definition leads2 (path : list (node F)) (a a' e : est) : Prop :=
    forall p k q k', good2 p a a' -> foldM (step fsin fcos) (windows2 path) p k = Ok (q, k') -> goodd q (e_val e r) (e_mag e r) (e_ops e).
  Lemma cons_leads2 n c q a a' b b' e : (forall p k d k1 x k2, good2 p a a' -> @partial F NF n c k = Ok (d, k1) -> @mul_nn F NF p d k1 = Ok (x, k2) -> good2 x b b') ->
    leads2 (c :: q) b b' e -> leads2 (n :: c :: q) a a' e.
  Proof.
    intros H1 H2 p k x k' G E. cbn [windows2] in E. apply foldM_cons_ok in E as (y & k1 & E1 & E2). unfold step in E1. cbn [fst snd] in E1.
    apply bind_ok in E1 as (d & k2 & E3 & E4). eapply H2; [|exact E2]. eapply H1; eauto.
  Qed.
  Lemma heads_lead2 n x v a a' b b' : (forall p k d k1 z k2, good2 p a a' -> @partial F NF n x k = Ok (d, k1) -> @mul_nn F NF p d k1 = Ok (z, k2) -> good2 z b b') ->
    forall l, Forall2 (fun p e => leads2 p b b' e) (rpaths v x) l -> Forall2 (fun p e => leads2 p a a' e) (map (cons n) (rpaths v x)) l.
  Proof.
    intros Hp l Fl. assert (Hh : forall p, In p (rpaths v x) -> exists q, p = x :: q) by (intros p; apply rpaths_head).
    revert Fl Hh. generalize (rpaths v x) as ps. intros ps Fl. induction Fl as [|p e ps l Hpe Fl IHf]; intros Hh; [constructor|].
    cbn [map]. constructor; [|apply IHf; intros p0 H0; apply Hh; right; exact H0].
    destruct (Hh p (or_introl eq_refl)) as [q ->]. eapply cons_leads2; [exact Hp|exact Hpe].
  Qed.
  Lemma drift_div c i x y a a' : is_constant y = false -> drift_terms c c2 (NDiv i x y) a a' =
    (let p := e_quot (e_const (flit 1)) (est_of y) in
     let q := e_quot (e_neg (est_of x)) (e_mul (est_of y) (est_of y)) in
     drift_terms c c2 x (e_mul a p) (product_slope a a' p (fun r => - slope c2 y r / (real_value y r * real_value y r))) ++
     drift_terms c c2 y (e_mul a q) (product_slope a a' q (fun r =>
       (2 * real_value x r * slope c2 y r - slope c2 x r * real_value y r) / (real_value y r * real_value y r * real_value y r)))).
  Proof. destruct y; try discriminate; reflexivity. Qed.
  Lemma slope_dval n : slope c2 n r = D n.
  Proof. unfold slope. apply derivative_value. Qed.

  Lemma paths_lead2 c v n : is_var v = true -> nid v = c -> S n -> okn n ->
    forall a a', exists l, Permutation l (drift_terms c c2 n a a') /\ Forall2 (fun p e => leads2 p a a' e) (rpaths v n) l.
  Proof.
    intros Hv Hc. induction n as [i w|i st kd|i args IH|i x IH|i x y IHx IHy|i x y IHx IHy|i x IH] using node_ind'; intros Hs Ha a a'.
    - exists []. cbn [rpaths is_var andb drift_terms]. split; constructor.
    - cbn [rpaths drift_terms]. destruct v as [| j st' kd'| | | | | ]; try discriminate Hv. cbn [is_var andb ptr_eq nid] in *.
      subst c. destruct (i =? j)%nat eqn:E.
      + exists [a']. split; [apply Permutation_refl|]. constructor; [|constructor]. intros p k q k' G E1. cbn in E1. injection E1 as <- _. exact (proj2 G).
      + exists []. split; constructor.
    - apply fine_args in Ha. rewrite rpaths_eq. cbn [is_var andb app arguments drift_terms].
      assert (Hin : forall x, In x args -> exists l, Permutation l (drift_terms c c2 x a a') /\ Forall2 (fun p e => leads2 p a a' e) (map (cons (NAdd i args)) (rpaths v x)) l).
      { intros x Hin. rewrite Forall_forall in IH, Ha. pose proof (Hclosed _ _ Hs Hin) as Sx. destruct (IH x Hin Sx (Ha x Hin) a a') as (l & Pl & Fl).
        exists l. split; [exact Pl|]. apply heads_lead2 with (b := a) (b' := a'); [|exact Fl].
        intros p0 k d k1 z k2 G E1 E2. cbn [partial] in E1.
        replace (existsb (fun a0 => ptr_eq a0 x) args) with true in E1 by (symmetry; apply existsb_exists; exists x; split; [exact Hin|apply ptr_refl]).
        unfold mk_const in E1. injection E1 as <- _. eapply one_same; [exact G|exact E2]. }
      clear IH Hs Ha. revert Hin. generalize (NAdd i args) as n. intros n Hin.
      induction args as [|x l IHl]; [exists []; split; constructor|].
      destruct IHl as (l1 & P1 & F1); [intros z Hz; apply Hin; right; exact Hz|]. destruct (Hin x (or_introl eq_refl)) as (l2 & P2 & F2).
      exists (l1 ++ l2). cbn [rev flat_map]. split; [eapply Permutation_trans; [apply Permutation_app_comm|apply Permutation_app; assumption]|].
      rewrite map_app, concat_app. apply Forall2_app; [exact F1|]. cbn [map concat]. rewrite app_nil_r. exact F2.
    - cbn [rpaths is_var andb drift_terms]. assert (Sx : S x) by (apply (Hclosed _ _ Hs); left; reflexivity).
      cbv zeta. edestruct (IH Sx (proj2 (proj2 Ha))) as (l & Pl & Fl). exists l. split; [exact Pl|]. eapply heads_lead2; [|exact Fl].
      intros p0 k d k1 z k2 G E1 E2. cbn [partial] in E1. rewrite ptr_refl in E1. apply bind_ok in E1 as (s & k3 & E1 & E3).
      eapply step_good; [exact E2|exact G|]. cbv beta. rewrite slope_dval. exact (sin_factor i x s d _ _ _ Hs Ha E1 E3).
    - assert (Sx : S x) by (apply (Hclosed _ _ Hs); left; reflexivity). assert (Sy : S y) by (apply (Hclosed _ _ Hs); right; left; reflexivity).
      destruct (const_or y) as [Cy|(j & w & ->)].
      { rewrite fine_div in Ha by exact Cy. destruct Ha as (Hx & Hy & Hd & Hder). destruct (Hder eq_refl) as [Hne Hsq]. clear Hder.
        rewrite drift_div by exact Cy. cbv zeta. edestruct (IHx Sx Hx) as (l1 & P1 & F1). edestruct (IHy Sy Hy) as (l2 & P2 & F2).
        exists (l2 ++ l1). split; [eapply Permutation_trans; [apply Permutation_app_comm|apply Permutation_app; [exact P1|exact P2]]|].
        change (Forall2 (fun p e => leads2 p a a' e) (map (cons (NDiv i x y)) (rpaths v y) ++ map (cons (NDiv i x y)) (rpaths v x)) (l2 ++ l1)).
        apply Forall2_app.
        - eapply heads_lead2; [|exact F2]. intros p0 k d k1 z k2 G E1 E2. cbn [partial] in E1.
          assert (Eab : ptr_eq x y = false) by (destruct (ptr_eq x y) eqn:Q; [|reflexivity]; exfalso; apply Hne; f_equal; apply (same_node S Hcoh); assumption).
          rewrite Eab, ptr_refl in E1. eapply step_good; [exact E2|exact G|]. cbv beta. rewrite !slope_dval. exact (square_factor x y d _ _ Sx Sy Hx Hy Cy Hsq E1).
        - eapply heads_lead2; [|exact F1]. intros p0 k d k1 z k2 G E1 E2. cbn [partial] in E1. rewrite ptr_refl in E1.
          eapply step_good; [exact E2|exact G|]. cbv beta. rewrite !slope_dval. exact (inverse_factor y d _ _ Sy Hy Cy Hd E1). }
      destruct Ha as [Hx Hw]. cbn [rpaths is_var andb drift_terms]. cbv zeta. edestruct (IHx Sx Hx) as (l & Pl & Fl). exists l. split; [exact Pl|].
      cbn [map app]. eapply heads_lead2; [|exact Fl]. intros p0 k d k1 z k2 G E1 E2. cbn [partial] in E1. rewrite ptr_refl in E1.
      eapply step_good; [exact E2|exact G|]. exact (const_factor i x j w d _ _ Hs Hw E1).
    - destruct Ha as [Hx Hy]. cbn [rpaths is_var andb drift_terms].
      assert (Sx : S x) by (apply (Hclosed _ _ Hs); left; reflexivity). assert (Sy : S y) by (apply (Hclosed _ _ Hs); right; left; reflexivity).
      edestruct (IHx Sx Hx) as (l1 & P1 & F1). edestruct (IHy Sy Hy) as (l2 & P2 & F2).
      exists (l2 ++ l1). split; [eapply Permutation_trans; [apply Permutation_app_comm|apply Permutation_app; [exact P1|exact P2]]|].
      change (Forall2 (fun p e => leads2 p a a' e) (map (cons (NMul i x y)) (rpaths v y) ++ map (cons (NMul i x y)) (rpaths v x)) (l2 ++ l1)).
      apply Forall2_app.
      + eapply heads_lead2; [|exact F2]. intros p0 k d k1 z k2 G E1 E2. cbn [partial] in E1.
        assert (Ed : d = x).
        { destruct (ptr_eq x y) eqn:Eab; [|rewrite ptr_refl in E1; injection E1 as <- _; reflexivity].
          apply (same_node S Hcoh) in Eab; [|exact Sx|exact Sy]. injection E1 as <- _. symmetry. exact Eab. }
        subst d. eapply step_good; [exact E2|exact G|]. rewrite slope_dval. exact (built_factor x Sx Hx).
      + eapply heads_lead2; [|exact F1]. intros p0 k d k1 z k2 G E1 E2. cbn [partial] in E1. rewrite ptr_refl in E1. injection E1 as <- <-.
        eapply step_good; [exact E2|exact G|]. rewrite slope_dval. exact (built_factor y Sy Hy).
    - cbn [rpaths is_var andb drift_terms]. assert (Sx : S x) by (apply (Hclosed _ _ Hs); left; reflexivity).
      cbv zeta. edestruct (IH Sx (proj2 (proj2 Ha))) as (l & Pl & Fl). exists l. split; [exact Pl|]. eapply heads_lead2; [|exact Fl].
      intros p0 k d k1 z k2 G E1 E2. cbn [partial] in E1. rewrite ptr_refl in E1.
      eapply step_good; [exact E2|exact G|]. cbv beta. rewrite slope_dval. exact (cos_factor i x d _ _ Hs Ha E1).
  Qed.
  (** The sum over the paths. *)
  Lemma path_sum_second ps l : Forall2 (fun p e => leads2 p (e_const (flit 1)) (e_exact (fun _ => 0)) e) ps l ->
    forall d k q k', foldM (fun d path => bind (@path_prod F NF path) (fun prod => @add_nn F NF d prod)) ps d k = Ok (q, k') -> plain_terms q ->
    plain_terms d /\ Rabs (tot (map (fun e => e_val e r) l)) <= tot (map (fun e => e_mag e r) l) /\
    Rabs (D q - (D d + tot (map (fun e => e_val e r) l))) <= gam (sumN (map (fun e => (e_ops e + 1)%nat) l)) * tot (map (fun e => e_mag e r) l).
  Proof.
    assert (Pn : forall n, plain_terms n <-> Forall plain (nonconsts (terms n))).
    { intros n. unfold plain_terms, nonconsts. rewrite !Forall_forall. split; intros H x Hx.
      - apply filter_In in Hx as [Hx _]. auto.
      - destruct (is_constant x) eqn:Cx; [left; exact Cx|]. apply H. apply filter_In. split; [exact Hx|]. rewrite Cx. reflexivity. }
    intros Fl. induction Fl as [|p e ps l Hp Fl IH]; intros d k q k' E Hf.
    - cbn in E. injection E as <- _. cbn [map tot sumN]. rewrite Rplus_0_r, Rminus_diag_eq, Rabs_R0 by reflexivity. split; [exact Hf|]. split; lra.
    - apply foldM_cons_ok in E as (d1 & k1 & E1 & E2). apply bind_ok in E1 as (pd & k2 & E1 & E3).
      unfold path_prod in E1. apply bind_ok in E1 as (one & k3 & E1 & E4). unfold mk_const in E1. injection E1 as <- <-.
      destruct (IH _ _ _ _ E2 Hf) as (Hf1 & Ht & He). assert (Et : nonconsts (terms d1) = nonconsts (terms d) ++ nonconsts (terms pd)) by exact (add_nn_terms _ _ _ _ _ E3).
      apply Pn in Hf1. rewrite Et in Hf1. apply Forall_app in Hf1 as [Hfd Hfp]. apply Pn in Hfd. apply Pn in Hfp.
      assert (Gp : goodd pd (e_val e r) (e_mag e r) (e_ops e)).
      { refine (Hp _ _ _ _ _ E4). destruct (one_factor k) as [G1 G2]. split; [exact G1|]. cbn [e_exact e_val e_mag e_ops]. rewrite Rabs_R0. split; [rewrite Rabs_R0; lra|].
        intros _. cbn [dval]. rewrite Rminus_diag_eq, Rabs_R0 by reflexivity. lra. }
      destruct Gp as [Ap Ep]. specialize (Ep Hfp).
      assert (Ed : D d1 = D d + D pd).
      { rewrite (slope_terms c2 d1), (slope_terms c2 d), (slope_terms c2 pd). rewrite (slope_nonconsts c2 r (terms d1)), (slope_nonconsts c2 r (terms d)), (slope_nonconsts c2 r (terms pd)).
        rewrite Et, map_app, tot_app. reflexivity. }
      rewrite Ed in He. cbn [map tot sumN]. split; [exact Hfd|]. split; [apply abs_add; assumption|].
      set (T := tot (map (fun e0 => e_val e0 r) l)) in *. set (M := tot (map (fun e0 => e_mag e0 r) l)) in *. set (K := sumN (map (fun e0 => (e_ops e0 + 1)%nat) l)) in *.
      replace (D q - (D d + (e_val e r + T))) with ((D q - (D d + D pd)) - T + D pd - e_val e r) by ring.
      replace (D q - (D d + D pd) - T + D pd - e_val e r) with (D pd + (D q - (D d + D pd)) - (e_val e r + T)) by ring.
      eapply near_k; [apply abs_add; eassumption|apply (near_sum _ _ _ (e_ops e) _ _ _ K); [exact Ap|exact Ep|exact Ht|]|lia].
      replace (D q - (D d + D pd) - T) with (D q - (D d + D pd + T)) by ring. exact He.
  Qed.
  Lemma derivative_second n v d k k' : is_var v = true -> S n -> okn n -> @path_sum F NF (rpaths v n) k = Ok (d, k') -> finite_constants d ->
    Rabs (D d - e_val (drift_est (nid v) c2 n) r) <= error_bound (e_ops (drift_est (nid v) c2 n)) (e_mag (drift_est (nid v) c2 n) r).
  Proof.
    intros Hv Hs Ha E Hf. destruct (paths_lead2 (nid v) v n Hv eq_refl Hs Ha (e_const (flit 1)) (e_exact (fun _ => 0))) as (l & Pl & Fl).
    unfold path_sum in E. apply bind_ok in E as (z & k1 & E1 & E2). unfold mk_const in E1. injection E1 as <- <-.
    destruct (path_sum_second _ _ Fl _ _ _ _ E2 (fc_plain _ Hf)) as (_ & _ & He). unfold drift_est. rewrite e_sum_val, e_sum_mag, e_sum_ops.
    rewrite <- (tot_perm _ _ (Permutation_map (fun e => e_val e r) Pl)), <- (tot_perm _ _ (Permutation_map (fun e => e_mag e r) Pl)), <- (sumN_perm _ _ (Permutation_map (fun e => (e_ops e + 1)%nat) Pl)).
    cbn [dval] in He. rewrite Rplus_0_l in He. exact He.
  Qed.
End Second.

(** *** The second derivative as an estimate of real functions. *)
Lemma set_same r c : set_cell r c (r c) = r.
Proof. apply functional_extensionality. intros i. unfold set_cell. destruct (Nat.eqb i c) eqn:E; [apply Nat.eqb_eq in E as ->|]; reflexivity. Qed.
Section Cells.
  Variables (c : nat) (r : nat -> R).
  Notation CD f l := (cell_derivative f c r l).
  Lemma cd_ext (f g : (nat -> R) -> R) l : (forall x, f x = g x) -> CD f l -> CD g l.
  Proof. intros H Hd. eapply derivable_pt_lim_ext; [|exact Hd]. intros t. apply H. Qed.
  Lemma cd_val (f : (nat -> R) -> R) l l' : l = l' -> CD f l -> CD f l'.
  Proof. intros <-. auto. Qed.
  Lemma cd_const x : CD (fun _ => x) 0.
  Proof. apply (derivable_pt_lim_const x). Qed.
  Lemma cd_add f g f' g' : CD f f' -> CD g g' -> CD (fun x => f x + g x) (f' + g').
  Proof. intros Hf Hg. exact (derivable_pt_lim_plus (fun t => f (set_cell r c t)) (fun t => g (set_cell r c t)) (r c) _ _ Hf Hg). Qed.
  Lemma cd_neg f f' : CD f f' -> CD (fun x => - f x) (- f').
  Proof. intros Hf. exact (derivable_pt_lim_opp (fun t => f (set_cell r c t)) (r c) _ Hf). Qed.
  Lemma cd_mul f g f' g' : CD f f' -> CD g g' -> CD (fun x => f x * g x) (f' * g r + f r * g').
  Proof.
    intros Hf Hg. pose proof (derivable_pt_lim_mult (fun t => f (set_cell r c t)) (fun t => g (set_cell r c t)) (r c) _ _ Hf Hg) as Hm.
    cbn beta in Hm. rewrite set_same in Hm. exact Hm.
  Qed.
  Lemma cd_div f g f' g' : g r <> 0 -> CD f f' -> CD g g' -> CD (fun x => f x / g x) ((f' * g r - g' * f r) / (g r * g r)).
  Proof.
    intros Hn Hf Hg. pose proof (derivable_pt_lim_div (fun t => f (set_cell r c t)) (fun t => g (set_cell r c t)) (r c) _ _ Hf Hg) as Hm.
    cbn beta in Hm. rewrite set_same in Hm. exact (Hm Hn).
  Qed.
  Lemma cd_sin f f' : CD f f' -> CD (fun x => sin (f x)) (cos (f r) * f').
  Proof.
    intros Hf. pose proof (derivable_pt_lim_comp (fun t => f (set_cell r c t)) sin (r c) _ _ Hf (derivable_pt_lim_sin _)) as Hm.
    cbn beta in Hm. rewrite set_same in Hm. exact Hm.
  Qed.
  Lemma cd_cos f f' : CD f f' -> CD (fun x => cos (f x)) (- sin (f r) * f').
  Proof.
    intros Hf. pose proof (derivable_pt_lim_comp (fun t => f (set_cell r c t)) cos (r c) _ _ Hf (derivable_pt_lim_cos _)) as Hm.
    cbn beta in Hm. rewrite set_same in Hm. exact Hm.
  Qed.
End Cells.

(** No denominator is zero. *)
Definition nz (r : nat -> R) (n : node F) : Prop := forall i x y, sub (NDiv i x y) n -> is_constant y = false -> real_value y r <> 0.
Lemma nz_arg r n a : nz r n -> In a (arguments n) -> nz r a.
Proof. intros Hn Ha i x y Hs. apply (Hn i x y). eapply sub_arg; [exact Ha|exact Hs]. Qed.
Lemma nz_of r n : Forall (nz r) (arguments n) -> (forall i x y, n = NDiv i x y -> is_constant y = false -> real_value y r <> 0) -> nz r n.
Proof.
  intros Ha Hn i x y Hs Hc. inversion Hs as [m Hm|s a m Hin Hs']; subst.
  - exact (Hn _ _ _ eq_refl Hc).
  - rewrite Forall_forall in Ha. exact (Ha _ Hin _ _ _ Hs' Hc).
Qed.
Lemma fine_nz fsin fcos der vs r n : fine fsin fcos der vs r n -> nz r n.
Proof.
  induction n as [i w|i st kd|i args IH|i a IH|i a b IHa IHb|i a b IHa IHb|i a IH] using node_ind'; intros Ha.
  - apply nz_of; [constructor|intros; discriminate].
  - apply nz_of; [constructor|intros; discriminate].
  - apply fine_args in Ha. apply nz_of; [|intros; discriminate]. cbn [arguments]. rewrite Forall_forall in *. auto.
  - apply nz_of; [|intros; discriminate]. constructor; [apply IH; apply Ha|constructor].
  - destruct (const_or b) as [Cb|(j & v & ->)].
    + rewrite fine_div in Ha by exact Cb. destruct Ha as (Ha & Hb & (_ & Hn & _) & _). rewrite est_value in Hn.
      apply nz_of; [constructor; [auto|constructor; [auto|constructor]]|]. intros i' x y E _. injection E as _ _ <-. exact Hn.
    + destruct Ha as [Ha _]. apply nz_of; [constructor; [auto|constructor; [|constructor]]|].
      * apply nz_of; [constructor|intros; discriminate].
      * intros i' x y E Cy. injection E as _ _ <-. discriminate Cy.
  - destruct Ha as [Ha Hb]. apply nz_of; [|intros; discriminate]. constructor; [auto|constructor; [auto|constructor]].
  - apply nz_of; [|intros; discriminate]. constructor; [apply IH; apply Ha|constructor].
Qed.
Lemma dval_nz c n r : nz r n -> cell_derivative (real_value n) c r (dval c n r).
Proof.
  induction n as [i w|i st kd|i args IH|i a IH|i a b IHa IHb|i a b IHa IHb|i a IH] using node_ind'; intros Hn.
  - apply cd_const.
  - cbn [dval]. unfold cell_derivative. cbn [real_value]. unfold set_cell. destruct (Nat.eqb i c); [apply derivable_pt_lim_id|apply (derivable_pt_lim_const (r i))].
  - cbn [dval]. assert (Hl : Forall (nz r) args) by (apply Forall_forall; intros a Ha; eapply nz_arg; [exact Hn|exact Ha]). clear Hn.
    change (cell_derivative (fun x => fold_right (fun a s => real_value a x + s) 0 args) c r (fold_right (fun a s => dval c a r + s) 0 args)).
    induction args as [|a l IHl]; [exact (cd_const c r 0)|]. cbn [fold_right].
    apply (cd_add c r (real_value a) (fun x => fold_right (fun a s => real_value a x + s) 0 l)); [exact (Forall_inv IH (Forall_inv Hl))|exact (IHl (Forall_inv_tail IH) (Forall_inv_tail Hl))].
  - apply (cd_cos c r (real_value a)). apply IH. eapply nz_arg; [exact Hn|left; reflexivity].
  - assert (Na : nz r a) by (eapply nz_arg; [exact Hn|left; reflexivity]). assert (Nb : nz r b) by (eapply nz_arg; [exact Hn|right; left; reflexivity]).
    destruct (const_or b) as [Cb|(j & v & ->)].
    + assert (Hb : real_value b r <> 0) by (apply (Hn i a b); [apply sub_refl|exact Cb]). rewrite dval_div by exact Cb.
      eapply cd_val; [|exact (cd_div c r (real_value a) (real_value b) _ _ Hb (IHa Na) (IHb Nb))]. field. exact Hb.
    + cbn [dval]. eapply cd_val; [|exact (cd_mul c r (real_value a) (fun _ => / float_value v) _ _ (IHa Na) (cd_const c r _))]. unfold Rdiv. ring.
  - assert (Na : nz r a) by (eapply nz_arg; [exact Hn|left; reflexivity]). assert (Nb : nz r b) by (eapply nz_arg; [exact Hn|right; left; reflexivity]).
    exact (cd_mul c r (real_value a) (real_value b) _ _ (IHa Na) (IHb Nb)).
  - apply (cd_sin c r (real_value a)). apply IH. eapply nz_arg; [exact Hn|left; reflexivity].
Qed.
(** Denominators stay non-zero near a point. *)
Definition around (c : nat) (r : nat -> R) (P : (nat -> R) -> Prop) : Prop := exists eps, 0 < eps /\ forall t, Rabs (t - r c) < eps -> P (set_cell r c t).
Lemma around_and c r (P Q : (nat -> R) -> Prop) : around c r P -> around c r Q -> around c r (fun x => P x /\ Q x).
Proof.
  intros (e1 & H1 & G1) (e2 & H2 & G2). exists (Rmin e1 e2). split; [apply Rmin_glb_lt; assumption|].
  intros t Ht. split; [apply G1|apply G2]; (eapply Rlt_le_trans; [exact Ht|]); [apply Rmin_l|apply Rmin_r].
Qed.
Lemma around_all c r (P : (nat -> R) -> Prop) : (forall x, P x) -> around c r P.
Proof. intros H. exists 1. split; [lra|]. auto. Qed.
Lemma around_impl c r (P Q : (nat -> R) -> Prop) : (forall x, P x -> Q x) -> around c r P -> around c r Q.
Proof. intros H (e & He & G). exists e. split; [exact He|]. auto. Qed.
Lemma around_forall {A} c r (P : (nat -> R) -> A -> Prop) l : Forall (fun a => around c r (fun x => P x a)) l -> around c r (fun x => Forall (P x) l).
Proof.
  intros Hl. induction Hl as [|a l Ha Hl IH]; [apply around_all; constructor|].
  eapply around_impl; [|exact (around_and _ _ _ _ Ha IH)]. cbn beta. intros x [H1 H2]. constructor; assumption.
Qed.
Lemma nz_around c r n : nz r n -> around c r (fun x => nz x n).
Proof.
  induction n as [i w|i st kd|i args IH|i a IH|i a b IHa IHb|i a b IHa IHb|i a IH] using node_ind'; intros Hn;
    pose proof (fun a => nz_arg r _ a Hn) as Ha.
  - apply around_all. intros x. apply nz_of; [constructor|intros; discriminate].
  - apply around_all. intros x. apply nz_of; [constructor|intros; discriminate].
  - eapply around_impl; [|apply (around_forall c r nz args); rewrite Forall_forall in *; intros a Hin; apply IH; [exact Hin|apply Ha; exact Hin]].
    cbn beta. intros x Hx. apply nz_of; [exact Hx|intros; discriminate].
  - eapply around_impl; [|exact (IH (Ha a (or_introl eq_refl)))]. cbn beta. intros x Hx. apply nz_of; [|intros; discriminate]. constructor; [exact Hx|constructor].
  - assert (Na := Ha a (or_introl eq_refl)). assert (Nb := Ha b (or_intror (or_introl eq_refl))).
    assert (Hd : around c r (fun x => is_constant b = false -> real_value b x <> 0)).
    { destruct (is_constant b) eqn:Cb; [apply around_all; intros x Q; discriminate Q|].
      assert (Hb : real_value b r <> 0) by (apply (Hn i a b); [apply sub_refl|exact Cb]).
      assert (Hc : continuity_pt (fun t => real_value b (set_cell r c t)) (r c)).
      { apply derivable_continuous_pt. exists (dval c b r). exact (dval_nz c b r Nb). }
      destruct (continuous_neq_0 _ _ Hc) as [eps He]; [rewrite set_same; exact Hb|]. exists eps. split; [apply cond_pos|].
      intros t Ht _. specialize (He _ Ht). replace (r c + (t - r c)) with t in He by ring. exact He. }
    eapply around_impl; [|exact (around_and _ _ _ _ Hd (around_and _ _ _ _ (IHa Na) (IHb Nb)))]. cbn beta. intros x (H1 & H2 & H3).
    apply nz_of; [constructor; [exact H2|constructor; [exact H3|constructor]]|]. intros i' x' y' E. injection E as _ _ <-. exact H1.
  - eapply around_impl; [|exact (around_and _ _ _ _ (IHa (Ha a (or_introl eq_refl))) (IHb (Ha b (or_intror (or_introl eq_refl)))))]. cbn beta. intros x (H1 & H2).
    apply nz_of; [|intros; discriminate]. constructor; [exact H1|constructor; [exact H2|constructor]].
  - eapply around_impl; [|exact (IH (Ha a (or_introl eq_refl)))]. cbn beta. intros x Hx. apply nz_of; [|intros; discriminate]. constructor; [exact Hx|constructor].
Qed.

(** The terms of the second derivative are the derivatives of those of the first. *)
Lemma cd_step c r a a' p s : cell_derivative (e_val a) c r (e_val a' r) -> cell_derivative (e_val p) c r (s r) ->
  cell_derivative (e_val (e_mul a p)) c r (e_val (product_slope a a' p s) r).
Proof. intros Ha Hp. exact (cd_mul c r (e_val a) (e_val p) _ _ Ha Hp). Qed.
Lemma est_derivative c n r : nz r n -> cell_derivative (e_val (est_of n)) c r (slope c n r).
Proof.
  intros Hn. unfold slope. rewrite derivative_value. eapply cd_ext; [|exact (dval_nz c n r Hn)]. intros x. symmetry. apply est_value.
Qed.
Definition tv (l : list est) (r : nat -> R) : R := tot (map (fun e => e_val e r) l).
Lemma tv_app l l' r : tv (l ++ l') r = tv l r + tv l' r.
Proof. unfold tv. rewrite map_app, tot_app. reflexivity. Qed.
Lemma tv_cd_app c r l1 l2 d1 d2 (L1 L2 : list est) : L1 = l1 ++ l2 -> L2 = d1 ++ d2 ->
  cell_derivative (tv l1) c r (tv d1 r) -> cell_derivative (tv l2) c r (tv d2 r) -> cell_derivative (tv L1) c r (tv L2 r).
Proof.
  intros -> -> H1 H2. rewrite tv_app. eapply cd_ext; [|exact (cd_add c r _ _ _ _ H1 H2)]. intros x. cbn beta. rewrite tv_app. reflexivity.
Qed.
Lemma drift_derivative c c2 n r : nz r n -> forall a a', cell_derivative (e_val a) c2 r (e_val a' r) ->
  cell_derivative (tv (occurrence_terms c n a)) c2 r (tv (drift_terms c c2 n a a') r).
Proof.
  induction n as [i w|i st kd|i args IH|i x IH|i x y IHx IHy|i x y IHx IHy|i x IH] using node_ind'; intros Hn a a' Ha;
    pose proof (fun z => nz_arg r _ z Hn) as Hs.
  - exact (cd_const c2 r 0).
  - cbn [occurrence_terms drift_terms]. destruct (Nat.eqb i c); [|exact (cd_const c2 r 0)]. unfold tv. cbn [map tot]. rewrite Rplus_0_r.
    eapply cd_ext; [|exact Ha]. intros z. cbv beta. lra.
  - cbn [occurrence_terms drift_terms arguments] in *. clear Hn. induction args as [|x l IHl]; [exact (cd_const c2 r 0)|].
    eapply tv_cd_app; [reflexivity|reflexivity| |].
    + apply (Forall_inv IH); [apply Hs; left; reflexivity|exact Ha].
    + apply IHl; [exact (Forall_inv_tail IH)|]. intros z Hz. apply Hs. right. exact Hz.
  - cbn [occurrence_terms drift_terms]. cbv zeta. pose proof (Hs x (or_introl eq_refl)) as Nx. apply IH; [exact Nx|]. apply cd_step; [exact Ha|].
    pose proof (cd_neg c2 r _ _ (cd_sin c2 r _ _ (est_derivative c2 x r Nx))) as H. rewrite est_value in H.
    cbn [e_neg e_sin e_val]. eapply cd_val; [|exact H]. ring.
  - pose proof (Hs x (or_introl eq_refl)) as Nx. pose proof (Hs y (or_intror (or_introl eq_refl))) as Ny.
    destruct (const_or y) as [Cy|(j & v & ->)].
    + assert (Hy : real_value y r <> 0) by (apply (Hn i x y); [apply sub_refl|exact Cy]).
      pose proof (est_derivative c2 x r Nx) as Dx. pose proof (est_derivative c2 y r Ny) as Dy.
      rewrite terms_div, drift_div by exact Cy. cbv zeta. eapply tv_cd_app; [reflexivity|reflexivity| |].
      * apply IHx; [exact Nx|]. apply cd_step; [exact Ha|]. cbn [e_quot e_val e_const].
        eapply cd_val; [|apply (cd_div c2 r (fun _ => float_value (flit 1)) (e_val (est_of y)) 0 (slope c2 y r)); [rewrite est_value; exact Hy|apply cd_const|exact Dy]].
        rewrite est_value, one_value. field. exact Hy.
      * apply IHy; [exact Ny|]. apply cd_step; [exact Ha|]. cbn [e_quot e_neg e_mul e_val].
        assert (Hyy : e_val (est_of y) r * e_val (est_of y) r <> 0) by (rewrite est_value; apply Rmult_integral_contrapositive; split; exact Hy).
        pose proof (cd_mul c2 r _ _ _ _ Dy Dy) as Dm. pose proof (cd_neg c2 r _ _ Dx) as Dn.
        eapply cd_val; [|apply (cd_div c2 r (fun z => - e_val (est_of x) z) (fun z => e_val (est_of y) z * e_val (est_of y) z) _ _ Hyy Dn Dm)].
        rewrite !est_value. field. exact Hy.
    + cbn [occurrence_terms drift_terms]. cbv zeta. apply IHx; [exact Nx|]. apply cd_step; [exact Ha|]. exact (cd_const c2 r (float_value (flit 1) / float_value v)).
  - cbn [occurrence_terms drift_terms]. pose proof (Hs x (or_introl eq_refl)) as Nx. pose proof (Hs y (or_intror (or_introl eq_refl))) as Ny.
    eapply tv_cd_app; [reflexivity|reflexivity| |].
    + apply IHx; [exact Nx|]. apply cd_step; [exact Ha|exact (est_derivative c2 y r Ny)].
    + apply IHy; [exact Ny|]. apply cd_step; [exact Ha|exact (est_derivative c2 x r Nx)].
  - cbn [occurrence_terms drift_terms]. cbv zeta. pose proof (Hs x (or_introl eq_refl)) as Nx. apply IH; [exact Nx|]. apply cd_step; [exact Ha|].
    pose proof (cd_cos c2 r _ _ (est_derivative c2 x r Nx)) as H. rewrite est_value in H. exact H.
Qed.
Lemma second_nz c c2 n r : nz r n -> second_derivative (real_value n) c c2 r (e_val (drift_est c c2 n) r).
Proof.
  intros Hn. exists (dval c n). split.
  - destruct (nz_around c2 r n Hn) as (eps & He & G). exists eps. split; [exact He|]. intros t Ht. apply dval_nz. exact (G t Ht).
  - unfold drift_est. rewrite e_sum_val. eapply cd_ext; [|apply (drift_derivative c c2 n r Hn (e_const (flit 1)) (e_exact (fun _ => 0)))].
    + intros x. unfold tv. rewrite terms_value. cbn [e_const e_val]. rewrite one_value. ring.
    + exact (cd_const c2 r (float_value (flit 1))).
Qed.
