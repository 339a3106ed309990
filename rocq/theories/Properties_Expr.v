(** Properties C01-C12 and C17: building, evaluating and analysing expressions. *)
From Verif Require Import Base Num Node NodeDiff NodeInd NodeStd World MapProofs EvalProofs
     StdPropProofs PathProofs DiffSpec DiffProofs PanicProofs Api ApiProofs ExprExtra.
From Coq Require Import Reals Lra Floats.SpecFloat.
Local Open Scope R_scope.

(** ** C01 Sum evaluates to the sum *)
Theorem C01_sum_value (a b r : nodeX) (vs : valsX) k k' x y :
  evaluate vs a = Some x -> evaluate vs b = Some y ->
  add_nn a b k = Ok (r, k') -> evaluate vs r = Some (x + y).
Proof. intros Ha Hb E. rewrite (add_nn_val vs _ _ _ _ _ E), Ha, Hb. reflexivity. Qed.
Theorem C01_sum_scalar_right (a r : nodeX) (vs : valsX) k k' x y :
  evaluate vs a = Some x ->
  add_ns a (Some y) k = Ok (r, k') -> evaluate vs r = Some (x + y).
Proof. intros Ha E. rewrite (add_ns_val vs _ _ _ _ _ E), Ha. reflexivity. Qed.
Theorem C01_sum_scalar_left (a r : nodeX) (vs : valsX) k k' x y :
  evaluate vs a = Some x ->
  add_sn (Some y) a k = Ok (r, k') -> evaluate vs r = Some (y + x).
Proof. intros Ha E. rewrite (add_sn_val vs _ _ _ _ _ E), Ha. reflexivity. Qed.
(** No non-constant term is lost, duplicated or reordered (any number type). *)
Theorem C01_sum_terms {T} `{Num T} (a b r : node T) k k' :
  add_nn a b k = Ok (r, k') ->
  nonconsts (terms r) = nonconsts (terms a) ++ nonconsts (terms b).
Proof. exact (add_nn_terms a b k r k'). Qed.
Theorem C01_sum_terms_scalar {T} `{Num T} (a r : node T) v k k' :
  add_ns a v k = Ok (r, k') \/ add_sn v a k = Ok (r, k') ->
  nonconsts (terms r) = nonconsts (terms a).
Proof. intros [E|E]; [exact (add_ns_terms _ _ _ _ _ E)|exact (add_sn_terms _ _ _ _ _ E)]. Qed.
(** The constant terms are added up, from left to right and starting from 0, into one constant
    at the end, which is left out if it is zero and there is another term (any number type). *)
Theorem C01_sum_constant {T} `{Num T} (a b r : node T) v k k' :
  (add_nn a b k = Ok (r, k') ->
   (zero_const a /\ r = b) \/ (zero_const b /\ r = a) \/
   exists m, terms r = nonconsts (terms a) ++ nonconsts (terms b) ++ m /\ merged (terms a ++ terms b) m) /\
  (add_ns a v k = Ok (r, k') ->
   (neqb v n0 = true /\ r = a) \/
   exists m, terms r = nonconsts (terms a) ++ m /\ merged (terms a ++ [NConst k v]) m) /\
  (add_sn v a k = Ok (r, k') ->
   (neqb v n0 = true /\ r = a) \/
   exists m, terms r = nonconsts (terms a) ++ m /\ merged (NConst k v :: terms a) m).
Proof. split; [|split]; [apply add_nn_merged|apply add_ns_merged|apply add_sn_merged]. Qed.

(** ** C02 Product evaluates to the product *)
Theorem C02_product_value (a b r : nodeX) (vs : valsX) k k' x y :
  evaluate vs a = Some x -> evaluate vs b = Some y ->
  mul_nn a b k = Ok (r, k') -> evaluate vs r = Some (x * y).
Proof. intros Ha Hb E. apply (mul_nn_val vs _ _ _ _ _ E). rewrite Ha, Hb. reflexivity. Qed.
Theorem C02_product_scalar_right (a r : nodeX) (vs : valsX) k k' x y :
  evaluate vs a = Some x ->
  mul_ns a (Some y) k = Ok (r, k') -> evaluate vs r = Some (x * y).
Proof. intros Ha E. apply (mul_ns_val vs _ _ _ _ _ E). rewrite Ha. reflexivity. Qed.
Theorem C02_product_scalar_left (a r : nodeX) (vs : valsX) k k' x y :
  evaluate vs a = Some x ->
  mul_sn (Some y) a k = Ok (r, k') -> evaluate vs r = Some (y * x).
Proof. intros Ha E. apply (mul_sn_val vs _ _ _ _ _ E). rewrite Ha. reflexivity. Qed.

(** Multiplication never panics on expressions obtained through the API. *)
Theorem C02_product_total {T} `{Num T} `{HashOrd} k pool (a b : node T) (v : T) :
  reach any_op k pool -> In a pool -> In b pool ->
  (exists r k', mul_nn a b k = Ok (r, k')) /\
  (exists r k', mul_ns a v k = Ok (r, k')) /\
  (exists r k', mul_sn v a k = Ok (r, k')) /\
  (exists r k', neg_n a k = Ok (r, k')).
Proof.
  intros Hr Ha Hb. pose proof (reach_sums2 k pool Hr) as Hs. rewrite Forall_forall in Hs.
  repeat split; [apply mul_nn_tot|apply mul_ns_tot|apply mul_sn_tot|apply neg_n_tot]; auto.
Qed.

(** ** C03 Negation and subtraction *)
Theorem C03_neg_value (a r : nodeX) (vs : valsX) k k' x :
  evaluate vs a = Some x -> neg_n a k = Ok (r, k') -> evaluate vs r = Some (- x).
Proof. intros Ha E. apply (neg_n_val vs _ _ _ _ E). rewrite Ha. reflexivity. Qed.
Theorem C03_sub_value (a b r : nodeX) (vs : valsX) k k' x y :
  evaluate vs a = Some x -> evaluate vs b = Some y ->
  sub_nn a b k = Ok (r, k') -> evaluate vs r = Some (x - y).
Proof. intros Ha Hb E. apply (sub_nn_val vs _ _ _ _ _ E). rewrite Ha, Hb. reflexivity. Qed.
Theorem C03_sub_scalar_right (a r : nodeX) (vs : valsX) k k' x y :
  evaluate vs a = Some x ->
  sub_ns a (Some y) k = Ok (r, k') -> evaluate vs r = Some (x - y).
Proof. intros Ha E. apply (sub_ns_val vs _ _ _ _ _ E). rewrite Ha. reflexivity. Qed.
Theorem C03_sub_scalar_left (a r : nodeX) (vs : valsX) k k' x y :
  evaluate vs a = Some x ->
  sub_sn (Some y) a k = Ok (r, k') -> evaluate vs r = Some (y - x).
Proof. intros Ha E. apply (sub_sn_val vs _ _ _ _ _ E). rewrite Ha. reflexivity. Qed.

(** ** C04 Quotient *)
Lemma xdiv_some x y : y <> 0 -> xdiv (Some x) (Some y) = Some (x / y).
Proof. intros Hy. cbn. destruct (Req_EM_T y 0); [contradiction|reflexivity]. Qed.
Theorem C04_quotient_value (a b r : nodeX) (vs : valsX) k k' x y :
  evaluate vs a = Some x -> evaluate vs b = Some y -> y <> 0 ->
  div_nn a b k = Ok (r, k') -> evaluate vs r = Some (x / y).
Proof. intros Ha Hb Hy E. apply (div_nn_val vs _ _ _ _ _ E). rewrite Ha, Hb. apply xdiv_some; auto. Qed.
Theorem C04_quotient_scalar_right (a r : nodeX) (vs : valsX) k k' x y :
  evaluate vs a = Some x -> y <> 0 ->
  div_ns a (Some y) k = Ok (r, k') -> evaluate vs r = Some (x / y).
Proof. intros Ha Hy E. apply (div_ns_val vs _ _ _ _ _ E). rewrite Ha. apply xdiv_some; auto. Qed.
Theorem C04_quotient_scalar_left (a r : nodeX) (vs : valsX) k k' x y :
  evaluate vs a = Some x -> x <> 0 ->
  div_sn (Some y) a k = Ok (r, k') -> evaluate vs r = Some (y / x).
Proof. intros Ha Hy E. apply (div_sn_val vs _ _ _ _ _ E). rewrite Ha. apply xdiv_some; auto. Qed.
(** The panic condition, for any number type (hence for f64). *)
Theorem C04_quotient_panics_iff {T} `{Num T} (a b : node T) k p :
  div_nn a b k = Panic p <-> p = PDivZero /\ exists i c, b = NConst i c /\ neqb c n0 = true.
Proof.
  rewrite div_nn_panic. split; intros [Hp Hb]; split; auto.
  - destruct b; try discriminate. eauto.
  - destruct Hb as (i & c & -> & Hc). exact Hc.
Qed.
Theorem C04_quotient_scalar_right_panics_iff {T} `{Num T} (a : node T) (v : T) k p :
  div_ns a v k = Panic p <-> p = PDivZero /\ neqb v n0 = true.
Proof. apply div_ns_panic. Qed.
Theorem C04_quotient_scalar_left_panics_iff {T} `{Num T} (v : T) (b : node T) k p :
  div_sn v b k = Panic p <-> p = PDivZero /\ exists i c, b = NConst i c /\ neqb c n0 = true.
Proof.
  rewrite div_sn_panic. split; intros [Hp Hb]; split; auto.
  - destruct b; try discriminate. eauto.
  - destruct Hb as (i & c & -> & Hc). exact Hc.
Qed.

(** ** C05 Sine and cosine: never panic, value, constants folded *)
Theorem C05_sin (a : nodeX) (vs : valsX) k x :
  evaluate vs a = Some x ->
  exists r k', Node.sin_n a k = Ok (r, k') /\ evaluate vs r = Some (sin x) /\
               (is_constant a = true -> is_constant r = true).
Proof.
  intros Ha. destruct (sin_n_tot a k) as (r & k' & E). exists r, k'. split; [exact E|]. split.
  - rewrite (sin_n_val vs _ _ _ _ E), Ha. reflexivity.
  - destruct a; try discriminate. inversion E; auto.
Qed.
Theorem C05_cos (a : nodeX) (vs : valsX) k x :
  evaluate vs a = Some x ->
  exists r k', Node.cos_n a k = Ok (r, k') /\ evaluate vs r = Some (cos x) /\
               (is_constant a = true -> is_constant r = true).
Proof.
  intros Ha. destruct (cos_n_tot a k) as (r & k' & E). exists r, k'. split; [exact E|]. split.
  - rewrite (cos_n_val vs _ _ _ _ E), Ha. reflexivity.
  - destruct a; try discriminate. inversion E; auto.
Qed.

(** ** C06 Adding expressions: the exact panic condition; "never panics" is false *)
Theorem C06_add_panics_iff {T} `{Num T} (a b : node T) k p :
  add_nn a b k = Panic p <->
  p = PAssert /\
  is_constant_with_value a n0 = false /\ is_constant_with_value b n0 = false /\
  length (nonconsts (terms a ++ terms b)) = 1%nat /\
  neqb (fold_left nadd (const_vals (terms a ++ terms b)) n0) n0 = true.
Proof. exact (add_nn_panic a b k p). Qed.
Theorem C06_add_scalar_right_panics_iff {T} `{Num T} (a : node T) (v : T) k p :
  add_ns a v k = Panic p <->
  p = PAssert /\ neqb v n0 = false /\
  length (nonconsts (terms a)) = 1%nat /\
  neqb (nadd (fold_left nadd (const_vals (terms a)) n0) v) n0 = true.
Proof.
  rewrite add_ns_panic. unfold add_collapses. cbn [terms]. rewrite nonconsts_app, const_vals_app, fold_left_app. cbn.
  rewrite app_nil_r. reflexivity.
Qed.
Theorem C06_add_scalar_left_panics_iff {T} `{Num T} (v : T) (b : node T) k p :
  add_sn v b k = Panic p <->
  p = PAssert /\ neqb v n0 = false /\
  length (nonconsts (terms b)) = 1%nat /\
  neqb (fold_left nadd (v :: const_vals (terms b)) n0) n0 = true.
Proof. rewrite add_sn_panic. unfold add_collapses. reflexivity. Qed.

Definition f5 : F := flit 5.
Definition fm5 : F := SFopp (flit 5).
(** [(x + 5.) + (-5.)] aborts, in binary64, whatever libm does. *)
Theorem C06_add_never_panics_refuted (fsin fcos : F -> F) (HO : HashOrd) :
  exists k pool (a : node F),
    @reach F (NumF fsin fcos) any_op k pool /\ In a pool /\
    @add_ns F (NumF fsin fcos) a fm5 k = Panic PAssert.
Proof.
  exists 4%nat, [NVar 0 "x"%string VarContinuous; NAdd 3 [NVar 0 "x"%string VarContinuous; NConst 2 f5]].
  exists (NAdd 3 [NVar 0 "x"%string VarContinuous; NConst 2 f5]).
  split; [|split; [cbn; auto|vm_compute; reflexivity]].
  apply (@run_reach F (NumF fsin fcos) HO [OVar "x"%string VarContinuous; OAddNS 0 f5] 0 []).
  - constructor.
  - vm_compute. reflexivity.
Qed.

(** ** C07 Canonical form *)
Theorem C07_canonical_form {T} `{Num T} `{HashOrd} k pool (n : node T) :
  reach any_op k pool -> In n pool -> canonical n.
Proof.
  intros Hr Hn. destruct (reach_world false k pool Hr) as (S & HW & HS).
  rewrite Forall_forall in HS. eapply world_canonical; eauto.
Qed.

(** ** C08 Evaluation depends only on the variables that occur *)
Theorem C08_evaluate_local {T} `{Num T} (vs vs' : vals T) (n : node T) :
  (forall v, occurs v n -> hget ptr_eq v vs = hget ptr_eq v vs') ->
  evaluate vs n = evaluate vs' n.
Proof.
  intros Hv. apply evaluate_ext. intros v Hocc. specialize (Hv v Hocc).
  destruct Hocc as [Hvar _]. destruct v; try discriminate. cbn [evaluate]. rewrite Hv. reflexivity.
Qed.
(** A missing variable makes the expression NaN (binary64, for a libm that maps NaN to NaN). *)
Theorem C08_missing_variable_is_nan (fsin fcos : F -> F) (vs : vals F) (n v : node F) :
  fsin S754_nan = S754_nan -> fcos S754_nan = S754_nan ->
  occurs v n -> hget ptr_eq v vs = None ->
  @evaluate F (NumF fsin fcos) vs n = S754_nan.
Proof. exact (missing_nan fsin fcos vs n v). Qed.

(** ** C09 Node identity *)
Theorem C09_equality_is_equivalence {T} (a b c : node T) :
  ptr_eq a a = true /\ ptr_eq a b = ptr_eq b a /\
  (ptr_eq a b = true -> ptr_eq b c = true -> ptr_eq a c = true).
Proof. split; [apply ptr_eq_refl|]. split; [apply ptr_eq_sym|apply ptr_eq_trans]. Qed.
(** Equal nodes are the same object, with the same contents. *)
Theorem C09_equal_nodes_are_same {T} `{Num T} `{HashOrd} k pool (a b x y : node T) :
  reach any_op k pool -> In a pool -> In b pool -> sub x a -> sub y b ->
  ptr_eq x y = true -> x = y.
Proof.
  intros Hr Ha Hb Hx Hy E. destruct (reach_world false k pool Hr) as (S & HW & HS).
  rewrite Forall_forall in HS.
  eapply (world_ptr_eq false k S); [exact HW| | |exact E];
    [exact (world_sub false k S a x HW (HS a Ha) Hx)|exact (world_sub false k S b y HW (HS b Hb) Hy)].
Qed.
(** A new variable is different from everything that exists, whatever its name. *)
Theorem C09_new_variable_is_different {T} `{Num T} `{HashOrd} k pool s kd (v a x : node T) k' :
  reach any_op k pool -> exec pool (OVar s kd) k = Ok (v, k') ->
  In a pool -> sub x a -> ptr_eq v x = false.
Proof.
  intros Hr E Ha Hx. destruct (reach_world false k pool Hr) as (S & HW & HS).
  rewrite Forall_forall in HS. inversion E; subst.
  destruct (ptr_eq (NVar k s kd) x) eqn:Ep; auto.
  apply ptr_eq_nid in Ep. cbn in Ep.
  assert (Sx : S x) by exact (world_sub false k S a x HW (HS a Ha) Hx).
  pose proof (w_lt _ _ _ HW _ Sx). lia.
Qed.
(** No operation returns a node equal to an existing one unless it is that node. *)
Theorem C09_result_new_or_same {T} `{Num T} `{HashOrd} k pool o (n a x : node T) k' :
  reach any_op k pool -> exec pool o k = Ok (n, k') ->
  In a pool -> sub x a -> ptr_eq n x = true -> n = x.
Proof.
  intros Hr E Ha Hx Ep.
  eapply (C09_equal_nodes_are_same k' (pool ++ [n]) n a n x); eauto.
  - eapply reach_step; eauto. exact I.
  - apply in_or_app; right; cbn; auto.
  - apply in_or_app; auto.
  - constructor.
Qed.

(** ** C10 Variables of an expression *)
Theorem C10_variables {T} `{Num T} `{HashOrd} k pool (n : node T) :
  reach any_op k pool -> In n pool ->
  NoDup (map fst (p_a (std_properties n))) /\
  forall v, In v (map fst (p_a (std_properties n))) <-> occurs v n.
Proof.
  intros Hr Hn. destruct (reach_world false k pool Hr) as (S & HW & HS).
  rewrite Forall_forall in HS. eapply keys_are_vars; eauto.
Qed.

(** ** C11 Affine form is correct *)
Theorem C11_affine_form `{HashOrd} k pool (n : nodeX) (vs : valsX) :
  reach any_op k pool -> In n pool -> p_affine (std_properties n) = true ->
  evaluate vs n =
  x2 Rplus (xsum (map (fun kv => x2 Rmult (snd kv) (evaluate vs (fst kv))) (p_a (std_properties n))))
           (p_b (std_properties n)).
Proof.
  intros Hr Hn Ha. destruct (reach_world false k pool Hr) as (S & HW & HS).
  rewrite Forall_forall in HS. eapply affine_value; eauto.
Qed.

(** ** C12 Affine expressions are recognised *)
Theorem C12_affine_recognised {T} `{Num T} `{HashOrd} k pool (n : node T) :
  reach affine_op k pool -> In n pool -> p_affine (std_properties n) = true.
Proof.
  intros Hr Hn. pose proof (reach_aff k pool Hr) as Ha. rewrite Forall_forall in Ha. exact (Ha n Hn).
Qed.

(** ** C17 Path enumeration *)
(** It terminates on every expression and list of variables; the entry of a
    requested variable lists the paths to its occurrences, each exactly once:
    there is a duplicate-free list of positions, containing precisely the
    positions of the occurrences, whose paths are the returned ones. *)
Theorem C17_path_enumeration {T} `{HashOrd} t (n : node T) vars :
  forallb is_var vars = true ->
  exists ps, all_simple_paths t n vars = Ok ps /\
    (forall v, existsb (ptr_eq v) vars = false -> hget ptr_eq v ps = None) /\
    (forall v, existsb (ptr_eq v) vars = true ->
       exists paths L, hget ptr_eq v ps = Some paths /\
         NoDup L /\
         (forall pos, In pos L <->
            exists p w, walk n pos = Some (p ++ [w]) /\ is_var w = true /\ ptr_eq w v = true) /\
         map Some paths = map (walk n) L).
Proof.
  intros Hv. destruct (all_simple_paths_ok t n vars Hv) as (ps & E & _ & G).
  exists ps. split; [exact E|]. split; intros v Hm; rewrite G; unfold smem; rewrite Hm; auto.
  destruct (rpaths_positions v n) as (L & H1 & H2 & H3). exists (rpaths v n), L. auto.
Qed.
Theorem C17_non_variable {T} `{HashOrd} t (n : node T) vars :
  forallb is_var vars = false -> all_simple_paths t n vars = Panic PVarExpected.
Proof. exact (all_simple_paths_nonvar t n vars). Qed.

(** ** The hypotheses are met by concrete histories. *)
Section Examples.
  Let N0 : Num F := NumF0.
  Local Existing Instance N0.
  Local Existing Instance ord_id.

  (** x, y, 2x + y*sin(x) + 3, its derivative by x, the quotient of the two. *)
  Definition ex_prog : list (op F) :=
    [ OVar "x" VarContinuous; OVar "x" VarInteger; OMulSN (flit 2) 0; OSin 0; OMulNN 1 3;
      OAddNN 2 4; OAddNS 5 (flit 3); ODeriv 6 0; ODivNN 6 7; OMulNS 6 (flit 4) ]%string.
  Example ex_prog_runs : exists k pool, run ex_prog 0 [] = Ok (k, pool) /\ length pool = 10%nat
      /\ reach any_op k pool.
  Proof.
    destruct (run ex_prog 0 []) as [[k pool]|p] eqn:E; [|vm_compute in E; discriminate].
    exists k, pool. split; auto. split.
    - vm_compute in E. inversion E; reflexivity.
    - eapply run_reach; [constructor|exact E].
  Qed.

  (** An affine history: 2x - (y + 3)/4 + x. *)
  Example ex_affine : exists k pool n, reach affine_op k pool /\ In n pool /\ length (p_a (std_properties n)) = 2%nat.
  Proof.
    destruct (run [OVar "x" VarContinuous; OVar "y" VarContinuous; OMulSN (flit 2) 0; OAddNS 1 (flit 3);
                   ODivNS 3 (flit 4); OSubNN 2 4; OAddNN 5 0]%string 0 []) as [[k pool]|p] eqn:E;
      [|vm_compute in E; discriminate].
    exists k, pool, (nth 6 pool (NConst 0 S754_nan)). split; [|split].
    - eapply run_reach_P; [constructor| |exact E]. repeat constructor.
    - vm_compute in E. inversion E; subst. cbn; tauto.
    - vm_compute in E. inversion E; subst. vm_compute. reflexivity.
  Qed.
End Examples.

(** The value theorems' hypotheses at x = 1, y = 2 (exact arithmetic): the
    operands have values and the calls return. *)
Definition ex_x : nodeX := NVar 0 "x"%string VarContinuous.
Definition ex_y : nodeX := NVar 1 "y"%string VarContinuous.
Definition ex_vs : valsX := [(ex_x, Some 1); (ex_y, Some 2)].
Example C01_C05_example :
  evaluate ex_vs ex_x = Some 1 /\ evaluate ex_vs ex_y = Some 2 /\
  (exists r k', add_nn ex_x ex_y 2%nat = Ok (r, k')) /\
  (exists r k', mul_nn ex_x ex_y 2%nat = Ok (r, k')) /\
  (exists r k', sub_nn ex_x ex_y 2%nat = Ok (r, k')) /\
  (exists r k', div_nn ex_x ex_y 2%nat = Ok (r, k')) /\
  (exists r k', Node.sin_n ex_x 2%nat = Ok (r, k')).
Proof.
  split; [reflexivity|]. split; [reflexivity|].
  assert (Hs : forall n : nodeX, n = ex_x \/ n = ex_y -> sums2 n).
  { intros n [->| ->]; intros i args Hsub; inversion Hsub as [|? ? ? Hin]; destruct Hin. }
  split; [|split; [|split; [|split]]].
  - destruct (add_nn ex_x ex_y 2%nat) as [[r k']|p] eqn:E; [eauto|].
    apply add_nn_panic in E. destruct E as (_ & _ & _ & E & _). discriminate.
  - apply mul_nn_tot; (exact (Hs _ (or_introl eq_refl)) || exact (Hs _ (or_intror eq_refl))).
  - destruct (sub_nn ex_x ex_y 2%nat) as [[r k']|p] eqn:E; [eauto|].
    apply bind_panic in E as [E|(m & k1 & E1 & E2)].
    { exfalso. eapply tot_panic; [|exact E]. apply mul_sn_tot. exact (Hs _ (or_intror eq_refl)). }
    apply add_nn_panic in E2 as (_ & _ & Hz & Hl & _). exfalso.
    unfold mul_sn in E1. cbn in E1.
    destruct (Req_EM_T (- (1)) 0); [lra|]. destruct (Req_EM_T (- (1)) 1); [lra|].
    cbn in E1. inversion E1; subst. cbn in Hl. discriminate Hl.
  - destruct (div_nn ex_x ex_y 2%nat) as [[r k']|p] eqn:E; [eauto|].
    apply div_nn_panic in E. destruct E as (_ & E). discriminate E.
  - apply sin_n_tot.
Qed.
