(** Exact differentiation of integer polynomials. *)
From Verif Require Import Base Num Node NodeDiff NodeStd NodeInd ExprSpec EvalProofs World Fresh MapProofs StdPropProofs PathProofs DerivProofs DiffSpec DiffProofs GradProofs HessProofs CompProofs
     Api ApiProofs TextSpec FmtProofs FloatProofs FloatOps ExactSpec ExactSim ExactF Properties_Text RoundSpec RoundOps RoundProofs Properties_Exact PolySpec DegProofs DerivSim PolyVars.
From Coq Require Import Reals Lra Floats.SpecFloat NArith.
Local Open Scope R_scope.

(** *** Values in exact arithmetic, at real points *)
Definition envR (K : nat) (r : nat -> R) : valsX := map (fun j => (NVar j ""%string VarContinuous, Some (r j))) (seq 0 K).
Lemma envR_get K r i s kd : (i < K)%nat -> hget ptr_eq (NVar i s kd : nodeX) (envR K r) = Some (Some (r i)).
Proof.
  unfold envR. intros Hi. assert (G : forall a n, (a <= i < a + n)%nat -> hget ptr_eq (NVar i s kd : nodeX) (map (fun j => (NVar j ""%string VarContinuous, Some (r j))) (seq a n)) = Some (Some (r i))).
  { intros a n. revert a. induction n as [|n IH]; intros a Ha; [lia|]. cbn [seq map hget ptr_eq]. destruct (Nat.eqb_spec i a) as [->|]; [reflexivity|]. apply IH. lia. }
  apply G. lia.
Qed.
Lemma envR_none K r i s kd : (K <= i)%nat -> hget ptr_eq (NVar i s kd : nodeX) (envR K r) = None.
Proof.
  unfold envR. intros Hi. assert (G : forall a n, (a + n <= i)%nat -> hget ptr_eq (NVar i s kd : nodeX) (map (fun j => (NVar j ""%string VarContinuous, Some (r j))) (seq a n)) = None).
  { intros a n. revert a. induction n as [|n IH]; intros a Ha; [reflexivity|]. cbn [seq map hget ptr_eq]. destruct (Nat.eqb_spec i a) as [->|]; [lia|]. apply IH. lia. }
  apply G. lia.
Qed.
Lemma fin64_xval v : finite64 v -> xval v = Some (float_value v).
Proof. intros [V Hf]. unfold xval. rewrite Hf, float_value_fval. reflexivity. Qed.

Section Vals.
  Lemma op_est_sim (O2 : HashOrd) V k pool' ws (es : list est) o e w (n' : nodeX) k' :
    op_est k es o e -> op_size V ws o w ->
    (forall i g n, nth_error es i = Some g -> nth_error pool' i = Some n -> forall r K, (k <= K)%nat -> evaluate (envR K r) n = Some (e_val g r)) ->
    @exec X _ O2 pool' (exact_op o) k = Ok (n', k') ->
    (k <= k')%nat /\ forall r K, (k' <= K)%nat -> evaluate (envR K r) n' = Some (e_val e r).
  Proof.
    intros Hm Hsz Hfs E.
    destruct Hm as [s kd|v Hz|i j f g Hf Hg|i v f Hf Hz|i v f Hf Hz|i j f g Hf Hg|i v f Hf Hz|i v f Hf Hz|i j f g Hf Hg|i v f Hf Hz|i v f Hf Hz|i v f Hf Hz|i f Hf|i f Hf];
      cbn [exact_op exec] in E;
      try (apply with2_ok in E as (a & b & Ea & Eb & E));
      try (apply with1_ok in E as (a & Ea & E));
      try (rewrite (fin64_xval _ Hz) in E).
    - injection E as <- <-. split; [lia|]. intros r K HK. cbn [evaluate]. rewrite (envR_get K r k s kd) by lia. reflexivity.
    - injection E as <- <-. split; [lia|]. reflexivity.
    - assert (Hk : (k <= k')%nat) by (eapply fresh_mono; [apply add_nn_fresh|exact E]). split; [exact Hk|]. intros r K HK.
      rewrite (add_nn_val (envR K r) _ _ _ _ _ E), (Hfs _ _ _ Hf Ea), (Hfs _ _ _ Hg Eb) by lia. reflexivity.
    - assert (Hk : (k <= k')%nat) by (eapply fresh_mono; [apply add_ns_fresh|exact E]). split; [exact Hk|]. intros r K HK.
      rewrite (add_ns_val (envR K r) _ _ _ _ _ E), (Hfs _ _ _ Hf Ea) by lia. reflexivity.
    - assert (Hk : (k <= k')%nat) by (eapply fresh_mono; [apply add_sn_fresh|exact E]). split; [exact Hk|]. intros r K HK.
      rewrite (add_sn_val (envR K r) _ _ _ _ _ E), (Hfs _ _ _ Hf Ea) by lia. reflexivity.
    - assert (Hk : (k <= k')%nat) by (eapply fresh_mono; [apply sub_nn_fresh|exact E]). split; [exact Hk|]. intros r K HK.
      apply (sub_nn_val (envR K r) _ _ _ _ _ E). rewrite (Hfs _ _ _ Hf Ea), (Hfs _ _ _ Hg Eb) by lia. reflexivity.
    - assert (Hk : (k <= k')%nat) by (eapply fresh_mono; [apply sub_ns_fresh|exact E]). split; [exact Hk|]. intros r K HK.
      apply (sub_ns_val (envR K r) _ _ _ _ _ E). rewrite (Hfs _ _ _ Hf Ea) by lia. reflexivity.
    - assert (Hk : (k <= k')%nat) by (eapply fresh_mono; [apply sub_sn_fresh|exact E]). split; [exact Hk|]. intros r K HK.
      apply (sub_sn_val (envR K r) _ _ _ _ _ E). rewrite (Hfs _ _ _ Hf Ea) by lia. reflexivity.
    - assert (Hk : (k <= k')%nat) by (eapply fresh_mono; [apply mul_nn_fresh|exact E]). split; [exact Hk|]. intros r K HK.
      apply (mul_nn_val (envR K r) _ _ _ _ _ E). rewrite (Hfs _ _ _ Hf Ea), (Hfs _ _ _ Hg Eb) by lia. reflexivity.
    - assert (Hk : (k <= k')%nat) by (eapply fresh_mono; [apply mul_ns_fresh|exact E]). split; [exact Hk|]. intros r K HK.
      apply (mul_ns_val (envR K r) _ _ _ _ _ E). rewrite (Hfs _ _ _ Hf Ea) by lia. reflexivity.
    - assert (Hk : (k <= k')%nat) by (eapply fresh_mono; [apply mul_sn_fresh|exact E]). split; [exact Hk|]. intros r K HK.
      apply (mul_sn_val (envR K r) _ _ _ _ _ E). rewrite (Hfs _ _ _ Hf Ea) by lia. reflexivity.
    - inversion Hsz.
    - assert (Hk : (k <= k')%nat) by (eapply fresh_mono; [apply neg_n_fresh|exact E]). split; [exact Hk|]. intros r K HK.
      apply (neg_n_val (envR K r) _ _ _ _ E). rewrite (Hfs _ _ _ Hf Ea) by lia. reflexivity.
    - injection E as <- <-. split; [lia|]. intros r K HK. apply (Hfs _ _ _ Hf Ea). exact HK.
  Qed.
  Lemma exec_degree {NF : Num F} {HO : HashOrd} pool ds o g k n k' :
    (forall i g n, nth_error ds i = Some g -> nth_error pool i = Some n -> (degree n <= g)%nat) ->
    op_degree ds o g -> exec pool o k = Ok (n, k') -> (degree n <= g)%nat.
  Proof.
    intros Hd Ho E. destruct Ho as [s kd|v|i j a b Ha Hb|i v a Ha|i v a Ha|i j a b Ha Hb|i v a Ha|i v a Ha|i j a b Ha Hb|i v a Ha|i v a Ha|i a Ha|i a Ha];
      cbn [exec] in E; try (apply (@with2_ok F NF) in E as (x & y & Ex & Ey & E)); try (apply (@with1_ok F NF) in E as (x & Ex & E));
      try (pose proof (Hd _ _ _ Ha Ex) as D1); try (pose proof (Hd _ _ _ Hb Ey) as D2).
    - injection E as <- _. cbn. lia.
    - apply mk_const_deg in E. lia.
    - eapply add_nn_deg; [| |exact E]; lia.
    - eapply add_ns_deg; [|exact E]; lia.
    - eapply add_sn_deg; [|exact E]; lia.
    - eapply sub_nn_deg; [| |exact E]; lia.
    - eapply sub_ns_deg; [|exact E]; lia.
    - eapply sub_sn_deg; [|exact E]; lia.
    - eapply mul_nn_deg; [|exact E]; lia.
    - eapply mul_ns_deg; [|exact E]; lia.
    - eapply mul_sn_deg; [|exact E]; lia.
    - eapply neg_n_deg; [|exact E]; lia.
    - injection E as <- _. exact D1.
  Qed.
End Vals.

(** *** Derivatives of functions of cells *)
Lemma cell_derivative_unique f c r l l' : cell_derivative f c r l -> cell_derivative f c r l' -> l = l'.
Proof. apply uniqueness_limite. Qed.
Lemma hd_total g f x l : (forall t, g t = Some (f t)) -> has_derivative g x l -> derivable_pt_lim f x l.
Proof.
  intros Hg (d & h & Hh & Hl). apply (derivable_pt_lim_ext_loc h f x l d); [|exact Hl]. intros t Ht. specialize (Hh t Ht). rewrite Hg in Hh. injection Hh as Hh. symmetry. exact Hh.
Qed.
Lemma upd_env K r i s kd t (n : nodeX) : (i < K)%nat -> evaluate (upd (envR K r) (NVar i s kd) t) n = evaluate (envR K (set_cell r i t)) n.
Proof.
  intros Hi. apply evaluate_ext. intros v [Hv _]. destruct v as [|j s' kd'| | | | |]; try discriminate Hv. clear Hv.
  destruct (Nat.eq_dec j i) as [->|Hj].
  - rewrite evaluate_upd_same; [|reflexivity|cbn; apply Nat.eqb_refl]. cbn [evaluate]. rewrite envR_get by exact Hi. unfold set_cell. rewrite Nat.eqb_refl. reflexivity.
  - rewrite evaluate_upd_other; [|reflexivity|cbn; apply Nat.eqb_neq; exact Hj]. cbn [evaluate].
    destruct (Nat.lt_ge_cases j K) as [Hl|Hl].
    + rewrite !envR_get by exact Hl. unfold set_cell. apply Nat.eqb_neq in Hj. rewrite Hj. reflexivity.
    + rewrite !envR_none by exact Hl. reflexivity.
Qed.
Lemma deriv_val ks S (n' : nodeX) f K0 i s kd d' k k' :
  world true ks S -> S n' -> (forall r K, (K0 <= K)%nat -> evaluate (envR K r) n' = Some (f r)) ->
  path_sum (rpaths (NVar i s kd) n') k = Ok (d', k') ->
  exists D, (forall r, cell_derivative f i r (D r)) /\ forall r K, (Nat.max K0 (Datatypes.S i) <= K)%nat -> evaluate (envR K r) d' = Some (D r).
Proof.
  intros HW Hs Hf E.
  assert (G : forall r K, (Nat.max K0 (Datatypes.S i) <= K)%nat -> exists l, evaluate (envR K r) d' = Some l /\ cell_derivative f i r l).
  { intros r K HK. destruct (path_sum_correct ks S n' (NVar i s kd) d' k k' (envR K r) (r i) (f r) HW Hs eq_refl) as (l & El & Hl); [apply Hf; lia| |exact E|].
    - cbn [evaluate]. rewrite envR_get by lia. reflexivity.
    - exists l. split; [exact El|]. unfold cell_derivative. eapply hd_total; [|exact Hl]. intros t. cbv beta. rewrite upd_env by lia. apply Hf. lia. }
  exists (fun r => match evaluate (envR (Nat.max K0 (Datatypes.S i)) r) d' with Some y => y | None => 0 end). split.
  - intros r. destruct (G r _ (Nat.le_refl _)) as (l & -> & Hl). exact Hl.
  - intros r K HK. destruct (G r K HK) as (l & El & Hl). destruct (G r _ (Nat.le_refl _)) as (l' & -> & Hl'). rewrite El. cbn. f_equal. eapply cell_derivative_unique; eauto.
Qed.

Lemma RNode_polyv {T1 T2} lim vw rel (P : node T1 -> bool) w (n : node T1) (n' : node T2) : RNode lim vw rel w n n' -> (forall v, occurs v n -> P v = true) -> polyv P n = true.
Proof.
  revert w n n'. pose proof (RNode_both_ind lim vw rel (fun w n n' => (forall v, occurs v n -> P v = true) -> polyv P n = true)
    (fun w l l' => (forall a v, In a l -> occurs v a -> P v = true) -> forallb (polyv P) l = true)) as B. cbv beta in B. apply B; clear B.
  - reflexivity.
  - intros w i s kd _ _ Hv. cbn. apply Hv. split; [reflexivity|apply sub_refl].
  - intros w i l l' _ _ IH Hv. cbn. apply IH. intros a v Ha [V1 V2]. apply Hv. split; [exact V1|]. eapply sub_arg; [exact Ha|exact V2].
  - intros w w1 w2 i a a' b b' _ IHa _ IHb _ _ Hv. cbn. rewrite IHa, IHb; [reflexivity| |]; intros v [V1 V2]; apply Hv; (split; [exact V1|]).
    + eapply sub_arg; [|exact V2]. cbn. auto.
    + eapply sub_arg; [|exact V2]. cbn. auto.
  - reflexivity.
  - intros w w1 w2 a a' l l' _ IHa _ IHl _ _ Hv. cbn. rewrite IHa, IHl; [reflexivity| |]; intros; eapply Hv; try eassumption; [right; assumption|left; reflexivity].
Qed.

Section PolyF.
  Variables fsin fcos : F -> F.
  Notation NF := (NumF fsin fcos).
  Notation rl := (rlim exact_limit).
  Notation top := (N.le_refl exact_limit).
  Local Instance num_f : Num F := NF.

  Lemma world_alias {T} `{Num T} ks (S : node T -> Prop) n : world true ks S -> S n -> no_alias n.
  Proof.
    intros HW Hn a b Ha Hb E.
    eapply w_coh; [exact HW|eapply world_sub; [exact HW|exact Hn|exact Ha]|eapply world_sub; [exact HW|exact Hn|exact Hb]|]. apply ptr_eq_nid. exact E.
  Qed.

  (** What is known of an expression: its counterpart in exact arithmetic, size, degree and value. *)
  Record facts (V : N) (k : nat) (n : node F) (n' : nodeX) (w : N) (g : nat) (f : (nat -> R) -> R) : Prop := {
    pf_rel : RNode exact_limit (N.max 1 V) rl w n n';
    pf_deg : (degree n <= g)%nat;
    pf_world : exists S, world true k S /\ S n;
    pf_world' : exists S, world true k S /\ S n';
    pf_val : exists K0, forall r K, (K0 <= K)%nat -> evaluate (envR K r) n' = Some (f r)
  }.
  Lemma facts_later V k k1 n n' w g f : facts V k n n' w g f -> (k <= k1)%nat -> facts V k1 n n' w g f.
  Proof.
    intros [H1 H2 (S & W & Hs) (S' & W' & Hs') H5] Hk. split; auto; [exists S|exists S']; split; auto; eapply world_le; eauto.
  Qed.
  Lemma poly_inv V k pool ws ds es : @poly_reach NF V k pool ws ds es ->
    exists pool' S S', pools exact_limit V pool pool' ws /\ length es = length ws /\ length ds = length ws /\
      world true k S /\ Forall S pool /\ world true k S' /\ Forall S' pool' /\
      (forall i g n, nth_error ds i = Some g -> nth_error pool i = Some n -> (degree n <= g)%nat) /\
      forall i e n, nth_error es i = Some e -> nth_error pool' i = Some n -> forall r K, (k <= K)%nat -> evaluate (envR K r) n = Some (e_val e r).
  Proof.
    intros Hr. induction Hr as [|HO k pool ws ds es o n k' w g e Hr (pool' & S & S' & HP & Hle & Hld & HW & HS & HW' & HS' & Hd & Hv) Hs Hw Hg He E].
    - exists [], (fun _ => False), (fun _ => False). split; [|split; [reflexivity|split; [reflexivity|]]].
      + split; [reflexivity|]. split; [reflexivity|]. intros [|i] w E; discriminate E.
      + split; [apply world_empty|]. split; [constructor|]. split; [apply world_empty|]. split; [constructor|]. split; intros [|i] g n E; discriminate E.
    - pose proof (exec_sim fsin fcos exact_limit top V HO ord_id pool pool' ws o w HP Hs Hw k) as Hsim. rewrite E in Hsim.
      destruct (@exec X _ ord_id pool' (exact_op o) k) as [[n' k2]|p] eqn:E'; [|contradiction].
      cbn in Hsim. destruct Hsim as [Ek Hn]. subst k2.
      destruct (op_est_sim ord_id V k pool' ws es o e w n' k' He Hs Hv E') as [Hk Hev].
      assert (Al : allowed true pool o) by (destruct Hs; exact I). assert (Al' : allowed true pool' (exact_op o)) by (destruct Hs; exact I).
      destruct (exec_grows true k S pool o HW HS Al _ _ E) as (_ & S1 & Hi & HW1 & Hn1).
      destruct (@exec_grows X _ ord_id true k S' pool' (exact_op o) HW' HS' Al' _ _ E') as (_ & S1' & Hi' & HW1' & Hn1').
      exists (pool' ++ [n']), S1, S1'. split; [apply pools_snoc; [exact top|assumption|assumption]|]. split; [rewrite !app_length; cbn; lia|]. split; [rewrite !app_length; cbn; lia|].
      split; [exact HW1|]. split; [apply Forall_app; split; [eapply Forall_impl; [|exact HS]; exact Hi|constructor; [exact Hn1|constructor]]|].
      split; [exact HW1'|]. split; [apply Forall_app; split; [eapply Forall_impl; [|exact HS']; exact Hi'|constructor; [exact Hn1'|constructor]]|].
      destruct HP as (L1 & L2 & _). split.
      + intros i h m Eg Em. destruct (Nat.lt_ge_cases i (length ds)) as [Hlt|Hge].
        * rewrite nth_error_app1 in Eg by exact Hlt. rewrite nth_error_app1 in Em by lia. exact (Hd i h m Eg Em).
        * rewrite nth_error_app2 in Eg by exact Hge. rewrite nth_error_app2 in Em by lia.
          destruct (i - length ds)%nat as [|j] eqn:Ej; [|destruct j; discriminate Eg]. replace (i - length pool)%nat with 0%nat in Em by lia.
          injection Eg as <-. injection Em as <-. eapply exec_degree; eauto.
      + intros i h m Eg Em r K HK. destruct (Nat.lt_ge_cases i (length es)) as [Hlt|Hge].
        * rewrite nth_error_app1 in Eg by exact Hlt. rewrite nth_error_app1 in Em by lia. apply (Hv i h m Eg Em). lia.
        * rewrite nth_error_app2 in Eg by exact Hge. rewrite nth_error_app2 in Em by lia.
          destruct (i - length es)%nat as [|j] eqn:Ej; [|destruct j; discriminate Eg]. replace (i - length pool')%nat with 0%nat in Em by lia.
          injection Eg as <-. injection Em as <-. apply Hev, HK.
  Qed.
  Lemma poly_facts V k pool ws ds es i n w g e : @poly_reach NF V k pool ws ds es ->
    nth_error pool i = Some n -> nth_error ws i = Some w -> nth_error ds i = Some g -> nth_error es i = Some e -> exists n', facts V k n n' w g (e_val e).
  Proof.
    intros Hr En Ew Eg Ee. destruct (poly_inv _ _ _ _ _ _ Hr) as (pool' & S & S' & (L1 & L2 & HP) & Hle & Hld & HW & HS & HW' & HS' & Hd & Hv).
    destruct (HP i w Ew) as (m & n' & Em & En' & Hn). assert (m = n) as -> by congruence. exists n'. rewrite Forall_forall in HS, HS'. split.
    - exact Hn.
    - exact (Hd i g n Eg En).
    - exists S. split; [exact HW|]. apply HS. eapply nth_error_In; eauto.
    - exists S'. split; [exact HW'|]. apply HS'. eapply nth_error_In; eauto.
    - exists k. intros r K HK. exact (Hv i e n' Ee En' r K HK).
  Qed.

  Lemma facts_deriv V k n n' w g f v k1 d k2 : facts V k n n' w g f -> is_var v = true -> (k <= k1)%nat -> (dsize w g <= exact_limit)%N ->
    path_sum (rpaths v n) k1 = Ok (d, k2) ->
    exists d' D, facts V k2 d d' (dsize w g) (g - 1) D /\ (forall r, cell_derivative f (nid v) r (D r)) /\
      (forall u, occurs u d -> exists u', occurs u' n /\ ptr_eq u u' = true) /\
      forall i s kd, v = NVar i s kd -> path_sum (rpaths (NVar i s kd) n') k1 = Ok (d', k2).
  Proof.
    intros [Hrel Hdeg (S & HW & Hs) (S' & HW' & Hs') (K0 & Hval)] Hv Hk Hl E.
    destruct v as [|i s kd| | | | |]; try discriminate Hv. cbn [nid].
    assert (Hg : (w * N.of_nat (degree n) <= w * N.of_nat g)%N) by (apply N.mul_le_mono_l; lia). unfold dsize in *.
    destruct (deriv_sim exact_limit (N.max 1 V) rl ltac:(lia) (rl_mono exact_limit top) (rl_lit fsin fcos exact_limit top) (rl_add fsin fcos exact_limit top)
                (rl_mul fsin fcos exact_limit top) (rl_eqb fsin fcos exact_limit) (rl_zero fsin fcos exact_limit top)
                (NVar i s kd) (NVar i s kd) (conj eq_refl (conj eq_refl eq_refl)) w n n' Hrel (world_alias k S n HW Hs) (world_alias k S' n' HW' Hs') ltac:(lia)) as [Hsim Hd].
    specialize (Hsim k1). rewrite E in Hsim. destruct (path_sum (rpaths (NVar i s kd) n') k1) as [[d' k3]|p] eqn:E'; [|contradiction].
    unfold simR in Hsim. cbn [fst snd] in Hsim. destruct Hsim as [Ek Hr]. subst k3.
    destruct (deriv_val k S' n' f K0 i s kd d' k1 k2 HW' Hs' Hval E') as (D & HD & HDv).
    destruct (path_sum_grows true k1 S (rpaths (NVar i s kd) n) (world_le _ _ _ _ Hk HW) (rpaths_world true k S _ _ HW Hs) _ _ E) as (_ & S1 & _ & HW1 & Hs1).
    destruct (path_sum_grows true k1 S' (rpaths (NVar i s kd) n') (world_le _ _ _ _ Hk HW') (rpaths_world true k S' _ _ HW' Hs') _ _ E') as (_ & S1' & _ & HW1' & Hs1').
    exists d', D. split; [|split; [exact HD|split; [|intros ? ? ? Ev; injection Ev as <- <- <-; exact E']]].
    - split.
      + apply (RNode_mono exact_limit (N.max 1 V) rl ltac:(lia) (rl_mono exact_limit top) _ _ _ _ Hr); lia.
      + specialize (Hd _ _ _ E). lia.
      + exists S1. auto.
      + exists S1'. auto.
      + exists (Nat.max K0 (Datatypes.S i)). exact HDv.
    - intros u Hu. pose proof (keys_are_vars true k S n HW Hs) as [_ Hkeys].
      set (P := fun u => existsb (ptr_eq u) (map fst (p_a (std_properties n)))).
      assert (Hp : polyv P n = true).
      { eapply RNode_polyv; [exact Hrel|]. intros x Hx. unfold P. apply existsb_exists. exists x. split; [apply Hkeys; exact Hx|apply ptr_eq_refl]. }
      pose proof (path_sum_keeps P (NVar i s kd) n Hp _ _ _ E) as Hp'. apply (polyv_occurs P u d Hu) in Hp'. unfold P in Hp'. apply existsb_exists in Hp' as (x & Hx & Ex).
      exists x. split; [apply Hkeys; exact Hx|exact Ex].
  Qed.
  Lemma stand_ptr V r vs (u u' : node F) : ptr_eq u u' = true ->
    (exists x, hget ptr_eq u' vs = Some x /\ integer x (r (nid u')) /\ (Z.abs_N (r (nid u')) <= V)%N) ->
    exists x, hget ptr_eq u vs = Some x /\ integer x (r (nid u)) /\ (Z.abs_N (r (nid u)) <= V)%N.
  Proof.
    intros E (x & H1 & H2 & H3). exists x. rewrite (ptr_eq_nid _ _ E). split; [|auto]. rewrite <- H1. clear -E. induction vs as [|[q y] vs IH]; [reflexivity|]. cbn [hget].
    rewrite IH. replace (ptr_eq u q) with (ptr_eq u' q); [reflexivity|]. destruct u, u'; try discriminate E; cbn in E; apply Nat.eqb_eq in E; subst; destruct q; reflexivity.
  Qed.
  Lemma facts_value V k d d' w g f r vs : facts V k d d' w g f -> stand_for V r vs d ->
    exists z, integer (@evaluate F NF vs d) z /\ f (fun i => IZR (r i)) = IZR z.
  Proof.
    intros [Hrel _ _ _ (K0 & Hval)] Hst. destruct (ids_bounded d) as [K HK].
    assert (Hb : bound_in (N.max 1 V) rl vs (envR (Nat.max K0 K) (fun i => IZR (r i))) d).
    { intros j s kd Hs. assert (Ho : occurs (NVar j s kd) d) by (split; [reflexivity|exact Hs]).
      destruct (Hst _ Ho) as (x & Ex & Hx & Hle). exists x, (Some (IZR (r j))). split; [exact Ex|].
      pose proof (HK _ Hs) as Hj. cbn in Hj. split; [apply envR_get; lia|]. split; [eapply rnode_var; eauto|]. exists (r j). split; [cbn in Hle; lia|]. split; [reflexivity|exact Hx]. }
    assert (Hr : rl w (@evaluate F NF vs d) (evaluate (envR (Nat.max K0 K) (fun i => IZR (r i))) d')).
    { eapply sim_evaluate; eauto using (rl_lim exact_limit), (rl_mono exact_limit top), (rl_lit fsin fcos exact_limit top), (rl_add fsin fcos exact_limit top), (rl_mul fsin fcos exact_limit top); lia. }
    rewrite Hval in Hr by lia. destruct Hr as (_ & z & _ & Ez & Hz). exists z. split; [exact Hz|]. injection Ez as Ez. exact Ez.
  Qed.

  (** A second partial derivative in exact arithmetic is one of functions of cells. *)
  Lemma second_cell (n' : nodeX) f K0 K r i1 s1 kd1 i2 s2 kd2 D l :
    (forall r K, (K0 <= K)%nat -> evaluate (envR K r) n' = Some (f r)) -> (K0 <= K)%nat -> (i1 < K)%nat -> (i2 < K)%nat ->
    (forall r, cell_derivative f i1 r (D r)) ->
    has_second_partial n' (envR K r) (NVar i1 s1 kd1) (NVar i2 s2 kd2) l -> cell_derivative D i2 r l.
  Proof.
    intros Hf HK H1 H2 HD (x2 & dl & g & E2 & Hg & Hl). cbn [evaluate] in E2. rewrite envR_get in E2 by exact H2. injection E2 as <-.
    unfold cell_derivative. apply (derivable_pt_lim_ext_loc g _ (r i2) l dl); [|exact Hl]. intros t Ht.
    destruct (Hg t Ht) as (x1 & E1 & HP). cbn [evaluate] in E1.
    assert (Ex : evaluate (upd (envR K r) (NVar i2 s2 kd2) t) (NVar i1 s1 kd1) = Some (set_cell r i2 t i1)).
    { rewrite upd_env by exact H2. cbn [evaluate]. rewrite envR_get by exact H1. reflexivity. }
    cbn [evaluate] in Ex. rewrite Ex in E1. injection E1 as <-.
    symmetry. eapply cell_derivative_unique; [apply HD|]. unfold cell_derivative. eapply hd_total; [|exact HP]. intros u. cbv beta.
    assert (G : evaluate (upd (upd (envR K r) (NVar i2 s2 kd2) t) (NVar i1 s1 kd1) u) n' = evaluate (upd (envR K (set_cell r i2 t)) (NVar i1 s1 kd1) u) n').
    { apply evaluate_ext. intros v [Hv _]. destruct (ptr_eq v (NVar i1 s1 kd1)) eqn:Ev.
      - rewrite !evaluate_upd_same; auto.
      - rewrite !(evaluate_upd_other _ (NVar i1 s1 kd1)); auto. apply upd_env. exact H2. }
    rewrite G, upd_env by exact H1. apply Hf. exact HK.
  Qed.
  Lemma facts_second V k n n' w g f v1 v2 q1 d q2 q3 dd q4 : facts V k n n' w g f -> is_var v1 = true -> is_var v2 = true -> (k <= q1)%nat -> (q2 <= q3)%nat ->
    (dsize w g <= exact_limit)%N -> (d2size w g <= exact_limit)%N -> path_sum (rpaths v1 n) q1 = Ok (d, q2) -> path_sum (rpaths v2 d) q3 = Ok (dd, q4) ->
    exists dd' D DD, facts V q4 dd dd' (d2size w g) (g - 1 - 1) DD /\ (forall r, cell_derivative f (nid v1) r (D r)) /\ (forall r, cell_derivative D (nid v2) r (DD r)) /\
      (forall E, (forall r, cell_derivative f (nid v2) r (E r)) -> forall r, cell_derivative E (nid v1) r (DD r)) /\
      forall u, occurs u dd -> exists u', occurs u' n /\ ptr_eq u u' = true.
  Proof.
    intros HF Hv1 Hv2 Hq Hq' Hl1 Hl E1 E2. unfold d2size in *.
    destruct (facts_deriv _ _ _ _ _ _ _ v1 q1 d q2 HF Hv1 Hq Hl1 E1) as (d' & D & F1 & HD & Ho1 & P1).
    destruct (facts_deriv _ _ _ _ _ _ _ v2 q3 dd q4 F1 Hv2 Hq' Hl E2) as (dd' & DD & F2 & HDD & Ho2 & P2).
    exists dd', D, DD. split; [exact F2|]. split; [exact HD|]. split; [exact HDD|]. split.
    - intros E HE r. destruct v1 as [|i1 s1 kd1| | | | |]; try discriminate Hv1. destruct v2 as [|i2 s2 kd2| | | | |]; try discriminate Hv2. cbn [nid] in *.
      specialize (P1 _ _ _ eq_refl). specialize (P2 _ _ _ eq_refl).
      destruct HF as [_ _ _ (S & HW & Hs) (K0 & Hval)]. destruct F1 as [_ _ _ (S1 & HW1 & Hs1) _]. destruct F2 as [_ _ _ _ (K2 & Hv2')].
      set (K := Nat.max (Nat.max K0 K2) (Datatypes.S (Nat.max i1 i2))).
      assert (X1 : evaluate (envR K r) (NVar i1 s1 kd1 : nodeX) = Some (r i1)) by (cbn [evaluate]; rewrite envR_get by lia; reflexivity).
      assert (X2 : evaluate (envR K r) (NVar i2 s2 kd2 : nodeX) = Some (r i2)) by (cbn [evaluate]; rewrite envR_get by lia; reflexivity).
      pose proof (second_derivative_val k q2 S S1 (envR K r) n' (NVar i1 s1 kd1) (NVar i2 s2 kd2) d' dd' _ _ _ _ _ _ _ HW Hs HW1 Hs1 eq_refl eq_refl P1 P2 X1 X2 (Hval r K ltac:(lia))) as Ev.
      rewrite (Hv2' r K) in Ev by lia. injection Ev as Ev. rewrite Ev, D2_sym.
      eapply (second_cell n' f K0 K r i2 s2 kd2 i1 s1 kd1); [exact Hval|lia|lia|lia|exact HE|].
      eapply D2_second_partial; [exact HW|exact Hs|reflexivity|reflexivity|exact X2|exact X1|apply Hval; lia].
    - intros u Hu. destruct (Ho2 u Hu) as (u' & Hu' & E'). destruct (Ho1 u' Hu') as (x & Hx & Ex). exists x. split; [exact Hx|].
      destruct u, u'; try discriminate E'; destruct x; try discriminate Ex; cbn in E', Ex |- *; apply Nat.eqb_eq in E'; apply Nat.eqb_eq in Ex; subst; apply Nat.eqb_refl.
  Qed.

  (** Affine expressions: the partial derivatives are the coefficients. *)
  Lemma facts_affine V k n n' w g f i s kd : facts V k n n' w g f -> p_affine (std_properties n) = true ->
    exists l, (forall r, cell_derivative f i r l) /\ forall c, In (NVar i s kd, c) (p_a (std_properties n)) -> exists z, integer c z /\ l = IZR z.
  Proof.
    intros [Hrel _ _ (S & HW & Hs) (K0 & Hval)] Ha.
    pose proof (sim_props exact_limit (N.max 1 V) rl ltac:(lia) (rl_lim exact_limit) (rl_lit fsin fcos exact_limit top) (rl_add fsin fcos exact_limit top) (rl_mul fsin fcos exact_limit top) w n n' Hrel) as HR.
    apply RP_RPa in HR as (A1 & A2 & _). exists (coef (NVar i s kd) (p_a (std_properties n'))). split.
    - intros r. set (K := Nat.max K0 (Datatypes.S i)).
      destruct (affine_partial true k S (envR K r) n' (NVar i s kd) (r i) (f r) HW Hs) as (x0 & E0 & HP); [etransitivity; [symmetry; exact A1|exact Ha]|reflexivity| |apply Hval; lia|].
      + cbn [evaluate]. rewrite envR_get by lia. reflexivity.
      + assert (x0 = r i) as -> by (cbn [evaluate] in E0; rewrite envR_get in E0 by lia; congruence). unfold cell_derivative. eapply hd_total; [|exact HP]. intros t. cbv beta. rewrite upd_env by lia. apply Hval. lia.
    - intros c Hc. assert (G : exists c', In (NVar i s kd : nodeX, c') (p_a (std_properties n')) /\ rel' rl c c').
      { clear -A2 Hc. induction A2 as [|[q x] [q' x'] l l' [(j & st & kd' & E1 & E2) H2] Hl IH]; [destruct Hc|]. cbn [fst snd] in *. destruct Hc as [Hc|Hc].
        - pose proof (f_equal fst Hc) as Eq. pose proof (f_equal snd Hc) as Ec. cbn [fst snd] in Eq, Ec. rewrite Eq in E1. injection E1 as E3 E4 E5. rewrite <- E3, <- E4, <- E5 in E2. exists x'. rewrite <- Ec, E2. split; [left; reflexivity|exact H2].
        - destruct (IH Hc) as (c' & H3 & H4). exists c'. split; [right; exact H3|exact H4]. }
      destruct G as (c' & Hc' & wc & _ & z & _ & -> & Hz). exists z. split; [exact Hz|]. rewrite (coef_in _ (Some (IZR z))); [reflexivity|apply keys_nodup|exact Hc'].
  Qed.
  Lemma facts_const V k i c d' w g f : facts V k (NConst i c) d' w g f -> @is_constant_with_value F NF (NConst i c) (@n0 F NF) = true -> forall r, f r = 0.
  Proof.
    intros [Hrel _ _ _ (K0 & Hval)] Hz r. assert (R0 : rl 0 (@n0 F NF) n0) by (apply rl_lit; [exact top|cbn; lia|cbn; lia]).
    rewrite (RNode_cwv exact_limit (N.max 1 V) rl (rl_eqb fsin fcos exact_limit) _ _ _ _ _ _ Hrel R0) in Hz. apply (const_value (envR K0 r)) in Hz. rewrite Hval in Hz by lia. injection Hz as Hz. exact Hz.
  Qed.
End PolyF.
Lemma nz_entry_in' {T} `{Num T} (ps : list (node T * node T)) dds p dd :
  In (p, dd) (flat_map nz_entry (combine ps dds)) <-> In (p, dd) (combine ps dds) /\ is_constant_with_value dd n0 = false.
Proof.
  rewrite in_flat_map. split.
  - intros ([q e] & H1 & H2). unfold nz_entry in H2. cbn [snd] in H2. destruct (is_constant_with_value e n0) eqn:Ez; [destruct H2|].
    destruct H2 as [E|[]]. inversion E; subst. auto.
  - intros [H1 H2]. exists (p, dd). split; auto. unfold nz_entry. cbn [snd]. rewrite H2. cbn; auto.
Qed.
