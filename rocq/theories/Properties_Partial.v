(** Property C77: partial derivatives of one operation. *)
From Verif Require Import Base Num Node NodeDiff NodeInd ExprSpec World MapProofs EvalProofs DerivProofs PanicProofs
     Api ApiProofs Properties_Expr PartialSpec.
From Coq Require Import Reals Lra Lia Floats.SpecFloat.
Local Open Scope R_scope.

Lemma coherent_args {T} `{Num T} k pool (n a b : node T) :
  reach any_op k pool -> In n pool -> In a (arguments n) -> In b (arguments n) -> ptr_eq a b = true -> a = b.
Proof.
  intros Hr Hn Ha Hb E. destruct (reach_world false k pool Hr) as (S & HW & HS). rewrite Forall_forall in HS.
  apply (w_coh _ _ _ HW); [eapply w_closed; eauto..|]. apply ptr_eq_nid. exact E.
Qed.
Lemma dl_eq f x l l' : derivable_pt_lim f x l -> l = l' -> derivable_pt_lim f x l'.
Proof. intros Hd <-. exact Hd. Qed.
Lemma values_of (vs : valsX) l : (forall a, In a l -> exists y, evaluate vs a = Some y) -> exists zs, Forall2 (fun a z => evaluate vs a = Some z) l zs.
Proof.
  induction l as [|a l IH]; intros Hl; [exists []; constructor|]. destruct (Hl a (or_introl eq_refl)) as [y Hy].
  destruct IH as [zs Hz]; [intros b Hb; apply Hl; right; exact Hb|]. exists (y :: zs). constructor; assumption.
Qed.
Lemma xsum_values (vs : valsX) l zs : Forall2 (fun a z => evaluate vs a = Some z) l zs -> xsum (map (evaluate vs) l) = Some (fold_right Rplus 0 zs).
Proof. induction 1 as [|a z l zs Ha _ IH]; [reflexivity|]. cbn [map fold_right]. rewrite xsum_cons, IH, Ha. reflexivity. Qed.
Lemma sum_with zs i t : (i < length zs)%nat -> fold_right Rplus 0 (with_value zs i t) = t + (fold_right Rplus 0 zs - nth i zs 0).
Proof.
  revert i. induction zs as [|z zs IH]; intros [|i] Hi; cbn [length] in Hi; try lia.
  - unfold with_value. cbn [firstn skipn app fold_right nth]. ring.
  - unfold with_value in *. cbn [firstn skipn app fold_right nth]. rewrite IH by lia. ring.
Qed.

(** ** C77 By an argument: the derivative of the operation by the first argument that is that node. *)
Theorem C77_argument k pool (n : nodeX) (vs : valsX) z :
  reach any_op k pool -> In n pool -> evaluate vs n = Some z -> arguments n <> [] ->
  exists zs, Forall2 (fun a y => evaluate vs a = Some y) (arguments n) zs /\ operation n zs = z /\
    forall a i, first_place n a i -> forall k1 d k2, partial n a k1 = Ok (d, k2) ->
      exists l, evaluate vs d = Some l /\ derivable_pt_lim (fun t => operation n (with_value zs i t)) (nth i zs 0) l.
Proof.
  intros Hr Hn Hz Hne. destruct (values_of vs (arguments n)) as [zs Hzs].
  { intros a Ha. exact (evaluate_arg _ _ _ _ Ha Hz). }
  exists zs. split; [exact Hzs|]. split.
  - destruct n as [i w|i st kd|i args|i a|i a b|i a b|i a]; cbn [arguments] in *; try (contradiction Hne; reflexivity).
    + rewrite evaluate_add, (xsum_values _ _ _ Hzs) in Hz. injection Hz as Hz. exact Hz.
    + inversion Hzs as [|? y ? ? Ea E0]; subst; inversion E0; subst. cbn in Hz. rewrite Ea in Hz. injection Hz as Hz. exact Hz.
    + inversion Hzs as [|? y ? ? Ea E0]; subst; inversion E0 as [|? y' ? ? Eb E1]; subst; inversion E1; subst. cbn in Hz. rewrite Ea, Eb in Hz. cbn in Hz.
      destruct (Req_EM_T y' 0); [discriminate Hz|]. injection Hz as Hz. exact Hz.
    + inversion Hzs as [|? y ? ? Ea E0]; subst; inversion E0 as [|? y' ? ? Eb E1]; subst; inversion E1; subst. cbn in Hz. rewrite Ea, Eb in Hz.
      injection Hz as Hz. exact Hz.
    + inversion Hzs as [|? y ? ? Ea E0]; subst; inversion E0; subst. cbn in Hz. rewrite Ea in Hz. injection Hz as Hz. exact Hz.
  - intros a i [Hi Hfirst] k1 d k2 E. pose proof (nth_error_In _ _ Hi) as Ha. exists (pv vs n a). split; [exact (partial_val vs n a d k1 k2 z Hz Ha E)|].
    assert (Hlen : length zs = length (arguments n)) by (clear - Hzs; induction Hzs; cbn; congruence).
    assert (Hil : (i < length zs)%nat) by (rewrite Hlen; apply nth_error_Some; congruence).
    pose proof (coherent_args k pool n) as Hco.
    destruct n as [j w|j st kd|j args|j x|j x y|j x y|j x]; cbn [arguments] in *; try (contradiction Hne; reflexivity).
    + apply (derivable_pt_lim_ext (fun t => t + (fold_right Rplus 0 zs - nth i zs 0))); [intros t; symmetry; exact (sum_with zs i t Hil)|].
      cbn [pv]. rewrite <- (Rplus_0_r 1) at 1. apply (derivable_pt_lim_plus id (fun _ => _)); [apply derivable_pt_lim_id|apply derivable_pt_lim_const].
    + inversion Hzs as [|? u ? ? Ea E0]; subst; inversion E0; subst. destruct i as [|i]; [|cbn in Hil; lia]. cbn [pv]. rewrite (rv_some _ _ _ Ea). apply derivable_pt_lim_cos.
    + inversion Hzs as [|? u ? ? Ea E0]; subst; inversion E0 as [|? v ? ? Eb E1]; subst; inversion E1; subst.
      cbn in Hz. rewrite Ea, Eb in Hz. cbn in Hz. destruct (Req_EM_T v 0) as [|Hv]; [discriminate Hz|]. cbn [pv]. rewrite (rv_some _ _ _ Ea), (rv_some _ _ _ Eb).
      destruct i as [|[|i]]; [| |cbn in Hil; lia]; cbn [nth_error] in Hi; injection Hi as <-.
      * rewrite ptr_eq_refl. change (derivable_pt_lim (fun t => t / v) u (1 / v)). unfold Rdiv.
        apply (derivable_pt_lim_ext (fun t => (id * fct_cte (/ v))%F t)); [reflexivity|].
        replace (1 * / v) with (1 * fct_cte (/ v) u + id u * 0) by (unfold fct_cte, id; ring). apply derivable_pt_lim_mult; [apply derivable_pt_lim_id|apply derivable_pt_lim_const].
      * destruct (ptr_eq x y) eqn:Exy.
        { exfalso. apply (Hfirst 0%nat); [lia|]. cbn. f_equal. exact (Hco x y Hr Hn (or_introl eq_refl) (or_intror (or_introl eq_refl)) Exy). }
        change (derivable_pt_lim (fun t => u / t) v (- u / (v * v))).
        apply (derivable_pt_lim_ext (fun t => (fct_cte u / id)%F t)); [reflexivity|].
        replace (- u / (v * v)) with ((0 * id v - 1 * fct_cte u v) / Rsqr (id v)) by (unfold fct_cte, id, Rsqr; field; exact Hv).
        apply derivable_pt_lim_div; [apply derivable_pt_lim_const|apply derivable_pt_lim_id|exact Hv].
    + inversion Hzs as [|? u ? ? Ea E0]; subst; inversion E0 as [|? v ? ? Eb E1]; subst; inversion E1; subst.
      cbn [pv]. rewrite (rv_some _ _ _ Ea), (rv_some _ _ _ Eb).
      destruct i as [|[|i]]; [| |cbn in Hil; lia]; cbn [nth_error] in Hi; injection Hi as <-.
      * rewrite ptr_eq_refl. change (derivable_pt_lim (fun t => t * v) u v).
        apply (derivable_pt_lim_ext (fun t => (id * fct_cte v)%F t)); [reflexivity|].
        apply (dl_eq _ _ (1 * fct_cte v u + id u * 0)); [|unfold fct_cte, id; ring]. apply derivable_pt_lim_mult; [apply derivable_pt_lim_id|apply derivable_pt_lim_const].
      * destruct (ptr_eq x y) eqn:Exy.
        { exfalso. apply (Hfirst 0%nat); [lia|]. cbn. f_equal. exact (Hco x y Hr Hn (or_introl eq_refl) (or_intror (or_introl eq_refl)) Exy). }
        change (derivable_pt_lim (fun t => u * t) v u).
        apply (derivable_pt_lim_ext (fun t => (fct_cte u * id)%F t)); [reflexivity|].
        apply (dl_eq _ _ (0 * id v + fct_cte u v * 1)); [|unfold fct_cte, id; ring]. apply derivable_pt_lim_mult; [apply derivable_pt_lim_const|apply derivable_pt_lim_id].
    + inversion Hzs as [|? u ? ? Ea E0]; subst; inversion E0; subst. destruct i as [|i]; [|cbn in Hil; lia]. cbn [pv]. rewrite (rv_some _ _ _ Ea). apply derivable_pt_lim_sin.
Qed.

Section Any.
  Context {T : Type} `{Num T}.
  (** ** C77 By any other node: the constant zero; of a variable by itself: one. *)
  Theorem C77_other (n a : node T) k : unrelated n a -> partial n a k = Ok (NConst k n0, Datatypes.S k).
  Proof.
    intros [Hu Hv]. destruct n as [i w|i st kd|i args|i x|i x y|i x y|i x]; cbn [partial arguments is_var] in *; try reflexivity.
    - specialize (Hv eq_refl). destruct a; try reflexivity. cbn [ptr_eq] in Hv. rewrite Hv. reflexivity.
    - destruct (existsb (fun b => ptr_eq b a) args) eqn:E; [|reflexivity]. apply existsb_exists in E as (b & Hb & E). rewrite (Hu b Hb) in E. discriminate E.
    - rewrite (Hu x (or_introl eq_refl)). reflexivity.
    - rewrite (Hu x (or_introl eq_refl)), (Hu y (or_intror (or_introl eq_refl))). reflexivity.
    - rewrite (Hu x (or_introl eq_refl)), (Hu y (or_intror (or_introl eq_refl))). reflexivity.
    - rewrite (Hu x (or_introl eq_refl)). reflexivity.
  Qed.
  Theorem C77_itself (v : node T) k : is_var v = true -> partial v v k = Ok (NConst k n1, Datatypes.S k).
  Proof. destruct v; try discriminate. intros _. cbn [partial]. rewrite Nat.eqb_refl. reflexivity. Qed.

  (** ** C77 When it panics: by the constant denominator of a quotient, if its square is zero. *)
  Theorem C77_panics k pool (n a : node T) k1 p :
    reach any_op k pool -> In n pool ->
    (partial n a k1 = Panic p <->
     p = PDivZero /\ exists i x j c, n = NDiv i x (NConst j c) /\ ptr_eq x a = false /\ ptr_eq (NConst j c) a = true /\
       neqb c n1 = false /\ neqb (nmul c c) n0 = true).
  Proof.
    intros Hr Hn. destruct (reach_world false k pool Hr) as (S & HW & HS). rewrite Forall_forall in HS. specialize (HS _ Hn).
    assert (Hs : forall x, In x (arguments n) -> sums2 x).
    { intros x Hx. eapply world_sums2; eauto. eapply w_closed; eauto. }
    pose proof (w_shape _ _ _ HW _ HS) as Hsh. split.
    - intros E. destruct n as [i w|i st kd|i args|i x|i x y|i x y|i x]; cbn [partial arguments shape] in *; try discriminate E.
      + destruct a; try discriminate E. destruct (_ =? _)%nat; discriminate E.
      + destruct (existsb _ _); discriminate E.
      + destruct (ptr_eq x a); [|discriminate E]. exfalso.
        destruct (sin_n_tot x k1) as (s & k2 & E1). destruct (neg_n_tot s) with (k := k2) as (r & k3 & E2).
        { assert (Hcase : (exists j w, s = NConst j w) \/ s = NSin k1 x).
          { unfold sin_n in E1. destruct x; inversion E1; subst; eauto. }
          destruct Hcase as [(j & w & ->)| ->]; intros j' args' Hj; inversion Hj as [|? ch ? Hin Hj']; subst.
          - destruct Hin.
          - destruct Hin as [<-|[]]. eapply Hs; [left; reflexivity|exact Hj']. }
        unfold bind in E. rewrite E1 in E. rewrite E2 in E. discriminate E.
      + destruct Hsh as (Hab & Hb0 & _). destruct (ptr_eq x a) eqn:Eac.
        * apply div_sn_panic in E as [_ E]. congruence.
        * destruct (ptr_eq y a) eqn:Ebc; [|discriminate E].
          destruct (neg_n_tot x) with (k := k1) as (x' & k2 & E1); [apply Hs; cbn; auto|].
          destruct (mul_nn_tot y y) with (k := k2) as (y' & k3 & E2); [apply Hs; cbn; auto|apply Hs; cbn; auto|].
          unfold bind in E. rewrite E1, E2 in E. apply div_nn_panic in E as [Ep E]. split; [exact Ep|].
          destruct y as [j c| | | | | | ].
          2-7: exfalso; unfold mul_nn in E2; cbn [is_constant_with_value is_constant orb andb] in E2; unfold mk_mul in E2; inversion E2; subst y'; discriminate E.
          exists i, x, j, c. cbn [is_constant_with_value] in Hb0. unfold mul_nn in E2. cbn [is_constant_with_value is_constant orb andb evaluate] in E2. rewrite Hb0 in E2. cbn [orb] in E2.
          destruct (neqb c n1) eqn:E1c; unfold ret, mk_const in E2; injection E2 as <- _; cbn [is_constant_with_value] in E; [congruence|]. auto.
      + destruct (ptr_eq x a); [discriminate E|]. destruct (ptr_eq y a); discriminate E.
      + destruct (ptr_eq x a); [|discriminate E]. unfold cos_n in E. destruct x; discriminate E.
    - intros (-> & i & x & j & c & -> & Hx & Hc & H1 & H0). cbn [shape] in Hsh. destruct Hsh as (_ & Hb0 & _). cbn [is_constant_with_value] in Hb0.
      cbn [partial]. rewrite Hx, Hc. destruct (neg_n_tot x) with (k := k1) as (x' & k2 & E1); [apply Hs; cbn; auto|].
      unfold bind. rewrite E1. unfold mul_nn. cbn [is_constant_with_value is_constant orb andb evaluate]. rewrite Hb0, H1. cbn [orb]. unfold mk_const, div_nn.
      cbn [is_constant_with_value]. rewrite H0. reflexivity.
  Qed.
End Any.
(** Never in exact arithmetic. *)
Theorem C77_exact k pool (n a : nodeX) k1 : reach any_op k pool -> In n pool -> exists d k2, partial n a k1 = Ok (d, k2).
Proof.
  intros Hr Hn. destruct (partial n a k1) as [[d k2]|p] eqn:E; [eauto|]. exfalso. apply (C77_panics k pool n a k1 p Hr Hn) in E as (_ & i & x & j & c & -> & _ & _ & _ & E).
  destruct (reach_world false k pool Hr) as (S & HW & HS). rewrite Forall_forall in HS. specialize (HS _ Hn).
  destruct (w_shape _ _ _ HW _ HS) as (_ & Hb0 & _). cbn [is_constant_with_value] in Hb0.
  destruct c as [c|]; [|discriminate E]. apply xeqb_zero in E. cbn in E. injection E as E. apply Rmult_integral in E.
  apply (xeqb_some_false c 0) in Hb0. destruct E; contradiction.
Qed.
(** In f64 it does: x / 1e-200 by its denominator. *)
Section Ex77.
  Local Open Scope string_scope.
  #[local] Existing Instance NumF0.
  Definition small : F := SFdiv 53 1024 (flit 1) (flit (10 ^ 200)).
  Theorem C77_exact_refuted : exists k pool (n c : node F), @reach F NumF0 any_op k pool /\ In n pool /\ In c (arguments n) /\ @partial F NumF0 n c k = Panic PDivZero.
  Proof.
    assert (C : match @run F NumF0 ord_id [OVar "x" VarContinuous; ODivNS 0 small] 0 [] with
                | Ok (k, pool) => match nth_error pool 1 with
                   | Some (NDiv _ _ c as n) => @partial F NumF0 n c k = Panic PDivZero
                   | _ => False end
                | Panic _ => False end) by (vm_compute; reflexivity).
    destruct (@run F NumF0 ord_id [OVar "x" VarContinuous; ODivNS 0 small] 0 []) as [[k pool]|] eqn:E; [|destruct C].
    destruct (nth_error pool 1) as [[| | | |i a c| | ]|] eqn:En; try (destruct C; fail).
    exists k, pool, (NDiv i a c), c. split; [eapply (@run_reach F NumF0 ord_id _ 0 []); [constructor|exact E]|].
    split; [eapply nth_error_In; exact En|]. split; [right; left; reflexivity|exact C].
  Qed.
End Ex77.

(** x*x by x (the first factor), and by y. *)
Example C77_example :
  let x := NVar 0 "x" VarContinuous : nodeX in let y := NVar 1 "y" VarContinuous : nodeX in let e := NMul 2 x x : nodeX in
  exists pool, reach any_op 3 pool /\ In e pool /\ evaluate [(x, Some 3)] e = Some (3 * 3) /\ first_place e x 0 /\ unrelated e y /\
    partial e x 3%nat = Ok (x, 3%nat).
Proof.
  intros x y e. exists [x; y; e]. split.
  - apply (@run_reach X _ ord_id [OVar "x" VarContinuous; OVar "y" VarContinuous; OMulNN 0 0] 0 []); [constructor|reflexivity].
  - split; [right; right; left; reflexivity|]. split; [reflexivity|]. split; [split; [reflexivity|intros j Hj; lia]|]. split; [|reflexivity].
    split; [intros b [<-|[<-|[]]]; reflexivity|discriminate].
Qed.
