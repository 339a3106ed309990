(** Two runs of the same computation over two number types.

    The numbers of the first type stand for those of the second as long as they are
    not too large; sizes are tracked. *)
From Verif Require Import Base Num Node NodeDiff NodeStd Constraint Matrix Problem ModelStd Model NodeInd ExprSpec Api ApiProofs ModelApi ModelSpec HistAff.
From Coq Require Import NArith.
Local Open Scope N_scope.

(** The same cell in the two runs. *)
Definition same_cell {T1 T2} (a : node T1) (b : node T2) : Prop :=
  match a, b with
  | NConst i _, NConst j _ | NAdd i _, NAdd j _
  | NCos i _, NCos j _ | NDiv i _ _, NDiv j _ _ | NMul i _ _, NMul j _ _
  | NSin i _, NSin j _ => i = j
  | NVar i s k, NVar j s' k' => i = j /\ s = s' /\ k = k'
  | _, _ => False
  end.
Lemma same_cell_ptr {T1 T2} (a b : node T1) (a' b' : node T2) : same_cell a a' -> same_cell b b' -> ptr_eq a b = ptr_eq a' b'.
Proof.
  destruct a, a'; cbn [same_cell]; try contradiction; destruct b, b'; cbn [same_cell]; try contradiction; intros; cbn [ptr_eq];
    repeat match goal with H : _ /\ _ |- _ => destruct H end; subst; reflexivity.
Qed.

(** Same outcome up to [R], from the same counter. *)
Definition simR {A B} (R : A -> B -> Prop) (m : res A) (m' : res B) : Prop :=
  match m, m' with Ok a, Ok b => R a b | Panic p, Panic q => p = q | _, _ => False end.
Definition simM2 {A B} (R : A -> B -> Prop) (m : M A) (m' : M B) : Prop :=
  forall k, simR (fun a b => snd a = snd b /\ R (fst a) (fst b)) (m k) (m' k).

Lemma simR_bind {A B A' B'} (R : A -> A' -> Prop) (Q : B -> B' -> Prop) m m' f f' :
  simR R m m' -> (forall a b, R a b -> simR Q (f a) (f' b)) -> simR Q (rbind m f) (rbind m' f').
Proof. destruct m, m'; cbn; try contradiction; auto. Qed.
Lemma simR_mono {A B} (R Q : A -> B -> Prop) m m' : (forall a b, R a b -> Q a b) -> simR R m m' -> simR Q m m'.
Proof. destruct m, m'; cbn; auto. Qed.
Lemma simR_mapR {A B A' B'} (R : A -> A' -> Prop) (Q : B -> B' -> Prop) f f' l l' :
  Forall2 R l l' -> (forall a b, R a b -> simR Q (f a) (f' b)) -> simR (Forall2 Q) (mapR f l) (mapR f' l').
Proof.
  intros Hl Hf. induction Hl as [|a b l l' Hab Hl IH]; cbn [mapR]; [cbn; constructor|].
  eapply simR_bind; [apply Hf, Hab|]. intros x y Hxy. eapply simR_bind; [apply IH|]. intros xs ys Hs. cbn. constructor; auto.
Qed.
Lemma simR_foldR {A S A' S'} (R : A -> A' -> Prop) (Q : S -> S' -> Prop) f f' l l' :
  Forall2 R l l' -> (forall s s' a b, R a b -> Q s s' -> simR Q (f s a) (f' s' b)) ->
  forall s s', Q s s' -> simR Q (foldR f l s) (foldR f' l' s').
Proof.
  intros Hl Hf. induction Hl as [|a b l l' Hab Hl IH]; intros s s' Hs; cbn [foldR]; [exact Hs|].
  eapply simR_bind; [apply Hf; eauto|]. intros. apply IH. assumption.
Qed.
Lemma simM2_ret {A B} (R : A -> B -> Prop) a b : R a b -> simM2 R (ret a) (ret b).
Proof. intros Hr k. cbn. auto. Qed.
Lemma simM2_fail {A B} (R : A -> B -> Prop) p : simM2 R (fail p) (fail p).
Proof. intros k. reflexivity. Qed.
Lemma simM2_now : simM2 eq now now.
Proof. intros k. cbn. auto. Qed.
Lemma simM2_lift {A B} (R : A -> B -> Prop) m m' : simR R m m' -> simM2 R (lift m) (lift m').
Proof. intros Hm k. unfold lift. destruct m, m'; cbn in *; auto. Qed.
Lemma simM2_bind {A B A' B'} (R : A -> A' -> Prop) (Q : B -> B' -> Prop) m m' f f' :
  simM2 R m m' -> (forall a b, R a b -> simM2 Q (f a) (f' b)) -> simM2 Q (bind m f) (bind m' f').
Proof.
  intros Hm Hf k. unfold bind. specialize (Hm k). destruct (m k) as [[a k1]|p], (m' k) as [[b k2]|q]; cbn in Hm; try contradiction; [|exact Hm].
  destruct Hm as [<- Hr]. apply Hf. exact Hr.
Qed.
Lemma simM2_mono {A B} (R Q : A -> B -> Prop) m m' : (forall a b, R a b -> Q a b) -> simM2 R m m' -> simM2 Q m m'.
Proof. intros Hi Hm k. eapply simR_mono; [|apply Hm]. cbn. intros a b [E Hr]. auto. Qed.
Lemma simM2_mapM {A B A' B'} (R : A -> A' -> Prop) (Q : B -> B' -> Prop) f f' l l' :
  Forall2 R l l' -> (forall a b, R a b -> simM2 Q (f a) (f' b)) -> simM2 (Forall2 Q) (mapM f l) (mapM f' l').
Proof.
  intros Hl Hf. induction Hl as [|a b l l' Hab Hl IH]; cbn [mapM]; [apply simM2_ret; constructor|].
  eapply simM2_bind; [apply Hf, Hab|]. intros x y Hxy. eapply simM2_bind; [apply IH|]. intros xs ys Hs. apply simM2_ret. constructor; auto.
Qed.
Lemma simM2_foldM {A S A' S'} (R : A -> A' -> Prop) (Q : S -> S' -> Prop) f f' l l' :
  Forall2 R l l' -> (forall s s' a b, R a b -> Q s s' -> simM2 Q (f s a) (f' s' b)) ->
  forall s s', Q s s' -> simM2 Q (foldM f l s) (foldM f' l' s').
Proof.
  intros Hl Hf. induction Hl as [|a b l l' Hab Hl IH]; intros s s' Hs; cbn [foldM]; [apply simM2_ret; exact Hs|].
  eapply simM2_bind; [apply Hf; eauto|]. intros. apply IH. assumption.
Qed.
Lemma Forall2_app2 {A B} (R : A -> B -> Prop) l1 l1' l2 l2' : Forall2 R l1 l1' -> Forall2 R l2 l2' -> Forall2 R (l1 ++ l2) (l1' ++ l2').
Proof. intros Ha Hb. induction Ha; cbn; [exact Hb|]. constructor; auto. Qed.
Lemma Forall2_len {A B} (R : A -> B -> Prop) l l' : Forall2 R l l' -> length l = length l'.
Proof. induction 1; cbn; congruence. Qed.
Lemma Forall2_mono {A B} (R Q : A -> B -> Prop) l l' : (forall a b, R a b -> Q a b) -> Forall2 R l l' -> Forall2 Q l l'.
Proof. intros Hi. induction 1; constructor; auto. Qed.
Lemma Forall2_map2 {A B A' B'} (R : A' -> B' -> Prop) (f : A -> A') (g : B -> B') l l' : Forall2 (fun a b => R (f a) (g b)) l l' -> Forall2 R (map f l) (map g l').
Proof. induction 1; cbn; constructor; auto. Qed.
Lemma Forall2_repeat {A B} (R : A -> B -> Prop) a b n : R a b -> Forall2 R (repeat a n) (repeat b n).
Proof. intros Hr. induction n; cbn; constructor; auto. Qed.
Lemma Forall2_eq {A} (l l' : list A) : Forall2 eq l l' -> l = l'.
Proof. induction 1; congruence. Qed.
Lemma vget_sim {A B} (R : A -> B -> Prop) l l' i : Forall2 R l l' -> simR R (vget l i) (vget l' i).
Proof.
  intros Hl. unfold vget. revert i. induction Hl as [|a b l l' Hr Hl IH]; intros [|i]; cbn; auto.
Qed.
Lemma set_nth_sim {A B} (R : A -> B -> Prop) l l' i x y : Forall2 R l l' -> R x y -> Forall2 R (set_nth l i x) (set_nth l' i y).
Proof. intros Hl Hr. revert i. induction Hl as [|a b l l' Hab Hl IH]; intros [|i]; cbn; constructor; auto. Qed.
Lemma vset_sim {A B} (R : A -> B -> Prop) l l' i x y : Forall2 R l l' -> R x y -> simR (Forall2 R) (vset l i x) (vset l' i y).
Proof.
  intros Hl Hr. unfold vset. rewrite (Forall2_len _ _ _ Hl). destruct (Nat.ltb i (length l')); cbn; [|reflexivity]. apply set_nth_sim; auto.
Qed.

Section ExactSim.
  Context {T1 T2 : Type} `{N1 : Num T1} `{N2 : Num T2}.
  (** The largest size, the size of a variable. *)
  Variables (lim vw : N).
  (** [rel w x y]: [x] stands for [y], whose size is at most [w]. *)
  Variable rel : N -> T1 -> T2 -> Prop.
  Hypothesis vw1 : 1 <= vw.
  Hypothesis rel_lim : forall w x y, rel w x y -> w <= lim.
  Hypothesis rel_mono : forall w w' x y, rel w x y -> w <= w' -> w' <= lim -> rel w' x y.
  Hypothesis rel_lit : forall z w, Z.abs_N z <= w -> w <= lim -> rel w (nlit z) (nlit z).
  Hypothesis rel_add : forall w w' x y x' y', rel w x y -> rel w' x' y' -> w + w' <= lim -> rel (w + w') (nadd x x') (nadd y y').
  Hypothesis rel_mul : forall w w' x y x' y', rel w x y -> rel w' x' y' -> w * w' <= lim -> rel (w * w') (nmul x x') (nmul y y').
  Hypothesis rel_neg : forall w x y, rel w x y -> rel w (nneg x) (nneg y).
  Hypothesis rel_eqb : forall w w' x y x' y', rel w x y -> rel w' x' y' -> neqb x x' = neqb y y'.
  Hypothesis rel_leb : forall w w' x y x' y', rel w x y -> rel w' x' y' -> nleb x x' = nleb y y'.
  Hypothesis rel_zero : forall x y, rel 0 x y -> neqb x n0 = true.

  Inductive RNode : N -> node T1 -> node T2 -> Prop :=
  | RNc w i v v' : 1 <= w -> rel w v v' -> RNode w (NConst i v) (NConst i v')
  | RNv w i s kd : vw <= w -> w <= lim -> RNode w (NVar i s kd) (NVar i s kd)
  | RNa w i l l' : 1 <= w -> RNodes w l l' -> RNode w (NAdd i l) (NAdd i l')
  | RNm w w1 w2 i a a' b b' : RNode w1 a a' -> RNode w2 b b' -> w1 * w2 <= w -> w <= lim -> RNode w (NMul i a b) (NMul i a' b')
  with RNodes : N -> list (node T1) -> list (node T2) -> Prop :=
  | RNnil w : w <= lim -> RNodes w [] []
  | RNcons w w1 w2 a a' l l' : RNode w1 a a' -> RNodes w2 l l' -> w1 + w2 <= w -> w <= lim -> RNodes w (a :: l) (a' :: l').
  Scheme RNode_mut := Induction for RNode Sort Prop with RNodes_mut := Induction for RNodes Sort Prop.
  Combined Scheme RNode_both from RNode_mut, RNodes_mut.

  Lemma RNode_pos w n n' : RNode w n n' -> 1 <= w.
  Proof.
    revert w n n'. apply (RNode_mut (fun w _ _ _ => 1 <= w) (fun _ _ _ _ => True)); try lia; auto.
  Qed.
  Lemma RNodes_lim w l l' : RNodes w l l' -> w <= lim.
  Proof. destruct 1; auto. Qed.
  Lemma RNode_lim w n n' : RNode w n n' -> w <= lim.
  Proof. destruct 1; auto; [eapply rel_lim; eauto|eapply RNodes_lim; eauto]. Qed.
  Lemma RNodes_mono w w' l l' : RNodes w l l' -> w <= w' -> w' <= lim -> RNodes w' l l'.
  Proof. intros Hr H1 H2. destruct Hr; econstructor; eauto; lia. Qed.
  Lemma RNode_mono w w' n n' : RNode w n n' -> w <= w' -> w' <= lim -> RNode w' n n'.
  Proof.
    intros Hr H1 H2. destruct Hr as [w i v v' Hw Hv|w i s kd Hw Hl|w i l l' Hw Hl|w w1 w2 i a a' b b' Ha Hb Hw Hl].
    - constructor; [lia|]. eapply rel_mono; eauto.
    - constructor; lia.
    - constructor; [lia|]. eapply RNodes_mono; eauto.
    - econstructor; eauto; lia.
  Qed.
  Lemma RNode_cell w n n' : RNode w n n' -> same_cell n n'.
  Proof. destruct 1; cbn; auto. Qed.
  Lemma RNodes_len w l l' : RNodes w l l' -> length l = length l'.
  Proof. revert w l l'. apply (RNodes_mut (fun _ _ _ _ => True) (fun w l l' _ => length l = length l')); auto. intros. cbn. congruence. Qed.
  Lemma RNodes_snoc w w1 l l' a a' : RNodes w l l' -> RNode w1 a a' -> w + w1 <= lim -> RNodes (w + w1) (l ++ [a]) (l' ++ [a']).
  Proof.
    intros Hl Ha. revert w l l' Hl.
    apply (RNodes_mut (fun _ _ _ _ => True) (fun w l l' _ => w + w1 <= lim -> RNodes (w + w1) (l ++ [a]) (l' ++ [a']))); auto.
    - intros w Hw Hb. cbn. eapply (RNcons _ w1 0); eauto; [constructor|]; lia.
    - intros w w2 w3 b b' l l' Hb _ Hl IH Hw Hlim Hs. cbn. eapply (RNcons _ w2 (w3 + w1)); eauto; [apply IH|]; lia.
  Qed.
  Lemma RNodes_forall w l l' : RNodes w l l' -> Forall2 (fun a a' => exists w', w' <= w /\ RNode w' a a') l l'.
  Proof.
    revert w l l'. apply (RNodes_mut (fun _ _ _ _ => True) (fun w l l' _ => Forall2 (fun a a' => exists w', w' <= w /\ RNode w' a a') l l')); auto.
    intros w w1 w2 a a' l l' Ha _ Hl IH Hw Hlim. constructor; [exists w1; split; [lia|auto]|].
    eapply Forall2_mono; [|exact IH]. cbn. intros x y (w' & H1 & H2). exists w'. split; [lia|auto].
  Qed.
  Lemma RNode_const w n n' : RNode w n n' -> is_constant n = is_constant n'.
  Proof. destruct 1; reflexivity. Qed.
  Lemma rel_z0 w : w <= lim -> rel w n0 n0.
  Proof. intros. apply rel_lit; cbn; lia. Qed.
  Lemma rel_z1 w : 1 <= w -> w <= lim -> rel w n1 n1.
  Proof. intros. apply rel_lit; cbn; lia. Qed.
  Lemma rel_m1 w : 1 <= w -> w <= lim -> rel w nm1 nm1.
  Proof. intros. apply rel_neg, rel_lit; cbn; lia. Qed.
  Lemma RNode_cwv w n n' w0 x y : RNode w n n' -> rel w0 x y -> is_constant_with_value n x = is_constant_with_value n' y.
  Proof. destruct 1; intros; cbn; eauto. Qed.

  (** *** Constructors *)
  Lemma sim_const w v v' : 1 <= w -> rel w v v' -> simM2 (RNode w) (mk_const v) (mk_const v').
  Proof. intros Hw Hv k. cbn. split; [reflexivity|]. constructor; auto. Qed.
  Lemma sim_var w s kd : vw <= w -> w <= lim -> simM2 (RNode w) (mk_var s kd) (mk_var s kd).
  Proof. intros Hw Hv k. cbn. split; [reflexivity|]. constructor; auto. Qed.
  Lemma sim_mk_add w l l' : 1 <= w -> RNodes w l l' -> simM2 (RNode w) (mk_add l) (mk_add l').
  Proof.
    intros Hw Hl k. unfold mk_add. rewrite (RNodes_len _ _ _ Hl). destruct (Nat.ltb (length l') 2); cbn; [reflexivity|]. split; [reflexivity|]. constructor; auto.
  Qed.
  Lemma sim_mk_mul w w1 w2 a a' b b' : RNode w1 a a' -> RNode w2 b b' -> w1 * w2 <= w -> w <= lim -> simM2 (RNode w) (mk_mul a b) (mk_mul a' b').
  Proof. intros Ha Hb H1 H2 k. cbn. split; [reflexivity|]. econstructor; eauto. Qed.

  (** *** Sums *)
  Definition RS (t : N) (s : T1 * list (node T1)) (s' : T2 * list (node T2)) : Prop :=
    t <= lim /\ exists wc wa, rel wc (fst s) (fst s') /\ RNodes wa (snd s) (snd s') /\ wc + wa <= t.
  Lemma sim_inner t w s s' a a' : RS t s s' -> RNode w a a' -> t + w <= lim -> RS (t + w) (add_inner s a) (add_inner s' a').
  Proof.
    intros (Ht & wc & wa & Hc & Ha & Hw) Hn Hl. destruct s as [c l], s' as [c' l']. cbn [fst snd] in *. split; [lia|].
    assert (G : forall n n', RNode w n n' -> exists wc0 wa0, rel wc0 c c' /\ RNodes wa0 (l ++ [n]) (l' ++ [n']) /\ wc0 + wa0 <= t + w).
    { intros n n' Hn'. exists wc, (wa + w). split; [exact Hc|]. split; [apply RNodes_snoc; auto; lia|lia]. }
    inversion Hn; subst; cbn [add_inner fst snd]; try (apply G; assumption).
    exists (wc + w), wa. split; [apply rel_add; auto; lia|]. split; [exact Ha|lia].
  Qed.
  Lemma sim_inners w l l' : RNodes w l l' -> forall t s s', RS t s s' -> t + w <= lim -> RS (t + w) (fold_left add_inner l s) (fold_left add_inner l' s').
  Proof.
    revert w l l'. apply (RNodes_mut (fun _ _ _ _ => True) (fun w l l' _ => forall t s s', RS t s s' -> t + w <= lim -> RS (t + w) (fold_left add_inner l s) (fold_left add_inner l' s'))); auto.
    - intros w Hw t s s' (Ht & wc & wa & Hc & Ha & Hs) Hl. cbn. split; [lia|]. exists wc, wa. split; [auto|]. split; [auto|lia].
    - intros w w1 w2 a a' l l' Ha _ Hl IH Hw Hlim t s s' Hs Hb. cbn [fold_left].
      pose proof (IH (t + w1) _ _ (sim_inner _ _ _ _ _ _ Hs Ha ltac:(lia)) ltac:(lia)) as (G1 & wc & wa & G2 & G3 & G4).
      split; [lia|]. exists wc, wa. split; [auto|]. split; [auto|lia].
  Qed.
  Lemma sim_outer t w s s' a a' : RS t s s' -> RNode w a a' -> t + w <= lim -> RS (t + w) (add_outer s a) (add_outer s' a').
  Proof.
    intros Hs Hn Hl. inversion Hn as [w0 i v v' Hw Hv|w0 i sn kd Hw Hlm|w0 i l l' Hw Hlm|w0 w1 w2 i x x' y y' Hx Hy Hw Hlm]; subst.
    - exact (sim_inner _ _ _ _ _ _ Hs Hn Hl).
    - exact (sim_inner _ _ _ _ _ _ Hs Hn Hl).
    - destruct s as [c1 l1], s' as [c2 l2]. cbn [add_outer]. apply sim_inners; auto.
    - exact (sim_inner _ _ _ _ _ _ Hs Hn Hl).
  Qed.
  Lemma sim_add_other w1 w2 a a' b b' : RNode w1 a a' -> RNode w2 b b' -> w1 + w2 <= lim -> simM2 (RNode (w1 + w2)) (add_other a b) (add_other a' b').
  Proof.
    intros Ha Hb Hl. unfold add_other. cbn [fold_left]. pose proof (RNode_pos _ _ _ Ha) as P1.
    assert (S0 : RS 0 (n0, []) (n0, [])).
    { split; [lia|]. exists 0, 0. split; [apply rel_z0; lia|]. split; [constructor; lia|lia]. }
    pose proof (sim_outer _ _ _ _ _ _ (sim_outer _ _ _ _ _ _ S0 Ha ltac:(lia)) Hb ltac:(lia)) as (_ & wc & wa & Hc & Hs & Hw).
    destruct (add_outer (add_outer (n0, []) a) b) as [c args], (add_outer (add_outer (n0, []) a') b') as [c' args']. cbn [fst snd] in *.
    assert (Hmk : 1 <= w1 + w2) by lia.
    destruct args as [|x args], args' as [|x' args']; try (apply RNodes_len in Hs; discriminate).
    - apply sim_const; [lia|]. eapply rel_mono; eauto; lia.
    - rewrite <- (rel_eqb _ _ _ _ _ _ Hc (rel_z0 0 ltac:(lia))). destruct (neqb c n0) eqn:E; cbn [negb].
      + apply sim_mk_add; [lia|]. eapply RNodes_mono; eauto; lia.
      + assert (Hwc : 1 <= wc). { destruct (N.eq_dec wc 0) as [->|]; [|lia]. apply rel_zero in Hc. congruence. }
        eapply simM2_bind; [apply (sim_const wc); auto|]. intros y y' Hy. apply sim_mk_add; [lia|].
        eapply RNodes_mono; [apply RNodes_snoc; eauto|lia|lia]. lia.
  Qed.
  Lemma sim_add_nn w1 w2 a a' b b' : RNode w1 a a' -> RNode w2 b b' -> w1 + w2 <= lim -> simM2 (RNode (w1 + w2)) (add_nn a b) (add_nn a' b').
  Proof.
    intros Ha Hb Hl. unfold add_nn. rewrite <- (RNode_cwv _ _ _ 0 n0 n0 Ha (rel_z0 0 ltac:(lia))), <- (RNode_cwv _ _ _ 0 n0 n0 Hb (rel_z0 0 ltac:(lia))).
    destruct (is_constant_with_value a n0); [apply simM2_ret; eapply RNode_mono; eauto; lia|].
    destruct (is_constant_with_value b n0); [apply simM2_ret; eapply RNode_mono; eauto; lia|]. apply sim_add_other; auto.
  Qed.
  Lemma sim_add_ns w1 w2 a a' v v' : RNode w1 a a' -> 1 <= w2 -> rel w2 v v' -> w1 + w2 <= lim -> simM2 (RNode (w1 + w2)) (add_ns a v) (add_ns a' v').
  Proof.
    intros Ha Hw Hv Hl. unfold add_ns. rewrite <- (rel_eqb _ _ _ _ _ _ Hv (rel_z0 0 ltac:(lia))).
    destruct (neqb v n0); [apply simM2_ret; eapply RNode_mono; eauto; lia|].
    eapply simM2_bind; [apply (sim_const w2); auto|]. intros x x' Hx. apply sim_add_other; auto.
  Qed.
  Lemma sim_add_sn w1 w2 b b' v v' : 1 <= w1 -> rel w1 v v' -> RNode w2 b b' -> w1 + w2 <= lim -> simM2 (RNode (w1 + w2)) (add_sn v b) (add_sn v' b').
  Proof.
    intros Hw Hv Hb Hl. unfold add_sn. rewrite <- (rel_eqb _ _ _ _ _ _ Hv (rel_z0 0 ltac:(lia))).
    destruct (neqb v n0); [apply simM2_ret; eapply RNode_mono; eauto; lia|].
    eapply simM2_bind; [apply (sim_const w1); auto|]. intros x x' Hx. apply sim_add_other; auto.
  Qed.

  (** *** Products *)
  Lemma RNode_both_ind (P : N -> node T1 -> node T2 -> Prop) (Q : N -> list (node T1) -> list (node T2) -> Prop) :
    (forall w i v v', 1 <= w -> rel w v v' -> P w (NConst i v) (NConst i v')) ->
    (forall w i s kd, vw <= w -> w <= lim -> P w (NVar i s kd) (NVar i s kd)) ->
    (forall w i l l', 1 <= w -> RNodes w l l' -> Q w l l' -> P w (NAdd i l) (NAdd i l')) ->
    (forall w w1 w2 i a a' b b', RNode w1 a a' -> P w1 a a' -> RNode w2 b b' -> P w2 b b' -> w1 * w2 <= w -> w <= lim -> P w (NMul i a b) (NMul i a' b')) ->
    (forall w, w <= lim -> Q w [] []) ->
    (forall w w1 w2 a a' l l', RNode w1 a a' -> P w1 a a' -> RNodes w2 l l' -> Q w2 l l' -> w1 + w2 <= w -> w <= lim -> Q w (a :: l) (a' :: l')) ->
    (forall w n n', RNode w n n' -> P w n n') /\ (forall w l l', RNodes w l l' -> Q w l l').
  Proof.
    intros H1 H2 H3 H4 H5 H6.
    pose proof (RNode_both (fun w n n' _ => P w n n') (fun w l l' _ => Q w l l')) as B. cbv beta in B.
    specialize (B H1 H2 H3 H4 H5 H6). exact B.
  Qed.

  Lemma sim_eval_const w n n' vs vs' : RNode w n n' -> is_constant n = true -> rel w (evaluate vs n) (evaluate vs' n').
  Proof. destruct 1; cbn; try discriminate. auto. Qed.

  Section ByConst.
    Variables (w0 : N) (s : node T1) (s' : node T2).
    Hypothesis Hs : RNode w0 s s'.
    Lemma sim_mul_head (w : N) r r' (m : M (node T1)) (m' : M (node T2)) :
      RNode w r r' -> w0 * w <= lim -> simM2 (RNode (w0 * w)) m m' ->
      simM2 (RNode (w0 * w))
        (if is_constant_with_value s n0 || is_constant_with_value r n0 then mk_const n0
         else if is_constant_with_value s n1 then ret r
         else if is_constant_with_value r n1 then ret s
         else if is_constant s && is_constant r then mk_const (nmul (evaluate [] s) (evaluate [] r)) else m)
        (if is_constant_with_value s' n0 || is_constant_with_value r' n0 then mk_const n0
         else if is_constant_with_value s' n1 then ret r'
         else if is_constant_with_value r' n1 then ret s'
         else if is_constant s' && is_constant r' then mk_const (nmul (evaluate [] s') (evaluate [] r')) else m').
    Proof.
      intros Hr Hl Hm. pose proof (RNode_pos _ _ _ Hs). pose proof (RNode_pos _ _ _ Hr).
      assert (1 <= w0 * w) by nia.
      rewrite <- (RNode_cwv _ _ _ 0 n0 n0 Hs (rel_z0 0 ltac:(lia))), <- (RNode_cwv _ _ _ 0 n0 n0 Hr (rel_z0 0 ltac:(lia))).
      rewrite <- (RNode_cwv _ _ _ 1 n1 n1 Hs (rel_z1 1 ltac:(lia) ltac:(lia))), <- (RNode_cwv _ _ _ 1 n1 n1 Hr (rel_z1 1 ltac:(lia) ltac:(lia))).
      rewrite <- (RNode_const _ _ _ Hs), <- (RNode_const _ _ _ Hr).
      destruct (_ || _); [apply sim_const; [lia|apply rel_z0; lia]|].
      destruct (is_constant_with_value s n1); [apply simM2_ret; eapply RNode_mono; eauto; nia|].
      destruct (is_constant_with_value r n1); [apply simM2_ret; eapply RNode_mono; eauto; nia|].
      destruct (is_constant s) eqn:E1; cbn [andb]; [|exact Hm].
      destruct (is_constant r) eqn:E2; [|exact Hm].
      apply sim_const; [lia|]. apply rel_mul; auto; eapply sim_eval_const; eauto.
    Qed.

    Lemma sim_mul_cn w r r' : RNode w r r' -> w0 * w <= lim -> simM2 (RNode (w0 * w)) (mul_cn s r) (mul_cn s' r').
    Proof.
      pose proof (RNode_pos _ _ _ Hs) as P0.
      pose proof (RNode_both_ind (fun w r r' => w0 * w <= lim -> simM2 (RNode (w0 * w)) (mul_cn s r) (mul_cn s' r'))
                             (fun w l l' => w0 * w <= lim -> simM2 (RNodes (w0 * w)) (mapM (mul_cn s) l) (mapM (mul_cn s') l'))) as B. cbv beta in B.
      apply B; clear B.
      - intros w1 i v v' Hw Hv Hl. cbn [mul_cn]. apply (sim_mul_head w1 (NConst i v) (NConst i v')); [constructor; auto|exact Hl|].
        apply (sim_mk_mul _ w0 w1); auto; [constructor; auto|lia].
      - intros w1 i v kd Hw Hv Hl. cbn [mul_cn]. apply (sim_mul_head w1 (NVar i v kd) (NVar i v kd)); [constructor; auto|exact Hl|].
        apply (sim_mk_mul _ w0 w1); auto; [constructor; auto|lia].
      - intros w1 i l l' Hw Hls IH Hl. cbn [mul_cn]. apply (sim_mul_head w1 (NAdd i l) (NAdd i l')); [constructor; auto|exact Hl|].
        eapply simM2_bind; [apply IH, Hl|]. intros x x' Hx. apply sim_mk_add; [nia|exact Hx].
      - intros w1 w2 w3 i a a' b b' Ha _ Hb _ Hw Hlm Hl. cbn [mul_cn].
        apply (sim_mul_head w1 (NMul i a b) (NMul i a' b')); [econstructor; eauto|exact Hl|].
        apply (sim_mk_mul _ w0 w1); auto; [econstructor; eauto|lia].
      - intros w1 Hw Hl. apply simM2_ret. constructor. exact Hl.
      - intros w1 w2 w3 a a' l l' Ha IHa Hl IHl Hw Hlm Hb. cbn [mapM]. assert (w0 * w2 + w0 * w3 <= w0 * w1) by nia.
        eapply simM2_bind; [apply IHa; lia|]. intros x x' Hx.
        eapply simM2_bind; [apply IHl; lia|]. intros xs xs' Hxs. apply simM2_ret. eapply RNcons; eauto; lia.
    Qed.
  End ByConst.

  Lemma sim_mul_nc w0 s s' w r r' : RNode w r r' -> RNode w0 s s' -> w0 * w <= lim -> simM2 (RNode (w0 * w)) (mul_nc s r) (mul_nc s' r').
  Proof.
    intros Hr Hs. revert w0 s s' Hs. pose proof (RNode_pos _ _ _ Hr) as P0.
    pose proof (RNode_both_ind (fun w0 s s' => w0 * w <= lim -> simM2 (RNode (w0 * w)) (mul_nc s r) (mul_nc s' r'))
                           (fun w0 l l' => w0 * w <= lim -> simM2 (RNodes (w0 * w)) (mapM (fun x => mul_nc x r) l) (mapM (fun x => mul_nc x r') l'))) as B. cbv beta in B.
    apply B; clear B.
    - intros w1 i v v' Hw Hv Hl. cbn [mul_nc]. apply (sim_mul_head w1 (NConst i v) (NConst i v')); [constructor; auto|exact Hr|exact Hl|].
      apply (sim_mk_mul _ w1 w); auto; [constructor; auto|lia].
    - intros w1 i v kd Hw Hv Hl. cbn [mul_nc]. apply (sim_mul_head w1 (NVar i v kd) (NVar i v kd)); [constructor; auto|exact Hr|exact Hl|].
      apply (sim_mk_mul _ w1 w); auto; [constructor; auto|lia].
    - intros w1 i l l' Hw Hls IH Hl. cbn [mul_nc]. apply (sim_mul_head w1 (NAdd i l) (NAdd i l')); [constructor; auto|exact Hr|exact Hl|].
      eapply simM2_bind; [apply IH, Hl|]. intros x x' Hx. apply sim_mk_add; [nia|exact Hx].
    - intros w1 w2 w3 i a a' b b' Ha _ Hb _ Hw Hlm Hl. cbn [mul_nc].
      apply (sim_mul_head w1 (NMul i a b) (NMul i a' b')); [econstructor; eauto|exact Hr|exact Hl|].
      apply (sim_mk_mul _ w1 w); auto; [econstructor; eauto|lia].
    - intros w1 Hw Hl. apply simM2_ret. constructor. exact Hl.
    - intros w1 w2 w3 a a' l l' Ha IHa Hl IHl Hw Hlm Hb. cbn [mapM]. assert (w2 * w + w3 * w <= w1 * w) by nia.
      eapply simM2_bind; [apply IHa; lia|]. intros x x' Hx.
      eapply simM2_bind; [apply IHl; lia|]. intros xs xs' Hxs. apply simM2_ret. eapply RNcons; eauto; lia.
  Qed.
  Lemma sim_mapM_nodes (c : N) (f : node T1 -> M (node T1)) (f' : node T2 -> M (node T2)) :
    1 <= c -> (forall w r r', RNode w r r' -> c * w <= lim -> simM2 (RNode (c * w)) (f r) (f' r')) ->
    forall w l l', RNodes w l l' -> c * w <= lim -> simM2 (RNodes (c * w)) (mapM f l) (mapM f' l').
  Proof.
    intros Hc Hf w l l' Hl.
    assert (G : forall w l l', RNodes w l l' -> c * w <= lim -> simM2 (RNodes (c * w)) (mapM f l) (mapM f' l')); [|exact (G w l l' Hl)].
    clear w l l' Hl.
    pose proof (RNode_both_ind (fun _ _ _ => True) (fun w l l' => c * w <= lim -> simM2 (RNodes (c * w)) (mapM f l) (mapM f' l'))) as B. cbv beta in B.
    apply B; clear B; auto.
    - intros w1 Hw Hl. apply simM2_ret. constructor. exact Hl.
    - intros w1 w2 w3 a a' l l' Ha IHa Hl IHl Hw Hlm Hb. cbn [mapM]. assert (c * w2 + c * w3 <= c * w1) by nia.
      eapply simM2_bind; [apply Hf; [exact Ha|lia]|]. intros x x' Hx.
      eapply simM2_bind; [apply IHl; lia|]. intros xs xs' Hxs. apply simM2_ret. eapply RNcons; eauto; lia.
  Qed.
  Lemma sim_mul_nn w1 w2 a a' b b' : RNode w1 a a' -> RNode w2 b b' -> w1 * w2 <= lim -> simM2 (RNode (w1 * w2)) (mul_nn a b) (mul_nn a' b').
  Proof.
    intros Ha Hb Hl. unfold mul_nn. apply (sim_mul_head w1 a a' Ha); auto.
    pose proof (RNode_pos _ _ _ Ha) as P1. pose proof (RNode_pos _ _ _ Hb) as P2.
    assert (Hm : simM2 (RNode (w1 * w2)) (mk_mul a b) (mk_mul a' b')) by (apply (sim_mk_mul _ w1 w2); auto; lia).
    pose proof Ha as Ha'. pose proof Hb as Hb'.
    destruct Ha as [w i v v' Hw Hv|w i s kd Hw Hlm|w i l l' Hw Hls|w wa wb i x x' y y' Hx Hy Hw Hlm];
      destruct Hb as [u j v1 v1' Hu Hv1|u j s1 kd1 Hu Hlm1|u j l1 l1' Hu Hls1|u wc wd j x1 x1' y1 y1' Hx1 Hy1 Hu Hlm1]; try exact Hm.
    - eapply simM2_bind; [apply sim_mapM_nodes; [exact P1| |exact Hls1|exact Hl]|].
      + intros. apply sim_mul_cn; auto.
      + intros x x' Hx. apply sim_mk_add; [nia|exact Hx].
    - rewrite (N.mul_comm w u) in *. eapply simM2_bind; [apply (sim_mapM_nodes u); [exact P2| |exact Hls|exact Hl]|].
      + intros w3 r r' Hr Hlr. rewrite (N.mul_comm u w3) in *. apply sim_mul_nc; auto.
      + intros x x' Hx. apply sim_mk_add; [nia|exact Hx].
  Qed.
  Lemma sim_mul_sn c v v' w r r' : 1 <= c -> rel c v v' -> RNode w r r' -> c * w <= lim -> simM2 (RNode (c * w)) (mul_sn v r) (mul_sn v' r').
  Proof.
    intros Hc Hv Hr. revert w r r' Hr.
    assert (Head : forall w r r' (m : M (node T1)) (m' : M (node T2)), RNode w r r' -> c * w <= lim -> (is_constant r = false -> simM2 (RNode (c * w)) m m') ->
      simM2 (RNode (c * w))
        (if neqb v n0 || is_constant r then match r with NConst _ x => mk_const (nmul v x) | _ => mk_const n0 end
         else if neqb v n1 then ret r else if is_constant_with_value r n1 then mk_const v else m)
        (if neqb v' n0 || is_constant r' then match r' with NConst _ x => mk_const (nmul v' x) | _ => mk_const n0 end
         else if neqb v' n1 then ret r' else if is_constant_with_value r' n1 then mk_const v' else m')).
    { intros w r r' m m' Hr Hl Hm. pose proof (RNode_pos _ _ _ Hr). assert (1 <= c * w) by nia.
      rewrite <- (rel_eqb _ _ _ _ _ _ Hv (rel_z0 0 ltac:(lia))), <- (rel_eqb _ _ _ _ _ _ Hv (rel_z1 1 ltac:(lia) ltac:(lia))).
      rewrite <- (RNode_cwv _ _ _ 1 n1 n1 Hr (rel_z1 1 ltac:(lia) ltac:(lia))), <- (RNode_const _ _ _ Hr).
      destruct (neqb v n0 || is_constant r) eqn:E.
      - destruct Hr; cbn [is_constant] in *; try (apply sim_const; [lia|apply rel_z0; lia]). apply sim_const; [lia|]. apply rel_mul; auto.
      - apply Bool.orb_false_iff in E. destruct E as [_ E].
        destruct (neqb v n1); [apply simM2_ret; eapply RNode_mono; eauto; nia|].
        destruct (is_constant_with_value r n1); [apply sim_const; [lia|]; eapply rel_mono; eauto; nia|]. auto. }
    pose proof (RNode_both_ind (fun w r r' => c * w <= lim -> simM2 (RNode (c * w)) (mul_sn v r) (mul_sn v' r'))
                           (fun w l l' => c * w <= lim -> simM2 (RNodes (c * w)) (mapM (fun x => mul_sn v x) l) (mapM (fun x => mul_sn v' x) l'))) as B. cbv beta in B.
    assert (Mk : forall w r r', RNode w r r' -> c * w <= lim -> simM2 (RNode (c * w)) (bind (mk_const v) (fun x => mk_mul x r)) (bind (mk_const v') (fun x => mk_mul x r'))).
    { intros w r r' Hr Hl. eapply simM2_bind; [apply (sim_const c); auto|]. intros x x' Hx. apply (sim_mk_mul _ c w); auto. lia. }
    apply B; clear B.
    - intros w1 i x x' Hw Hx Hl. cbn [mul_sn]. apply (Head w1 (NConst i x) (NConst i x')); [constructor; auto|exact Hl|]. cbn. discriminate.
    - intros w1 i x kd Hw Hx Hl. cbn [mul_sn]. apply (Head w1 (NVar i x kd) (NVar i x kd)); [constructor; auto|exact Hl|]. intros _.
      apply (Mk w1); [constructor; auto|exact Hl].
    - intros w1 i l l' Hw Hls IH Hl. cbn [mul_sn]. apply (Head w1 (NAdd i l) (NAdd i l')); [constructor; auto|exact Hl|]. intros _.
      eapply simM2_bind; [apply IH, Hl|]. intros x x' Hx. apply sim_mk_add; [nia|exact Hx].
    - intros w1 w2 w3 i a a' b b' Ha _ Hb _ Hw Hlm Hl. cbn [mul_sn]. apply (Head w1 (NMul i a b) (NMul i a' b')); [econstructor; eauto|exact Hl|]. intros _.
      apply (Mk w1); [econstructor; eauto|exact Hl].
    - intros w1 Hw Hl. apply simM2_ret. constructor. exact Hl.
    - intros w1 w2 w3 a a' l l' Ha IHa Hl IHl Hw Hlm Hb. cbn [mapM]. assert (c * w2 + c * w3 <= c * w1) by nia.
      eapply simM2_bind; [apply IHa; lia|]. intros x x' Hx.
      eapply simM2_bind; [apply IHl; lia|]. intros xs xs' Hxs. apply simM2_ret. eapply RNcons; eauto; lia.
  Qed.
  Lemma sim_mul_ns c v v' w r r' : 1 <= c -> rel c v v' -> RNode w r r' -> w * c <= lim -> simM2 (RNode (w * c)) (mul_ns r v) (mul_ns r' v').
  Proof.
    intros Hc Hv Hr. revert w r r' Hr.
    assert (Head : forall w r r' (m : M (node T1)) (m' : M (node T2)), RNode w r r' -> w * c <= lim -> (is_constant r = false -> simM2 (RNode (w * c)) m m') ->
      simM2 (RNode (w * c))
        (if is_constant r || neqb v n0 then match r with NConst _ x => mk_const (nmul x v) | _ => mk_const n0 end
         else if is_constant_with_value r n1 then mk_const v else if neqb v n1 then ret r else m)
        (if is_constant r' || neqb v' n0 then match r' with NConst _ x => mk_const (nmul x v') | _ => mk_const n0 end
         else if is_constant_with_value r' n1 then mk_const v' else if neqb v' n1 then ret r' else m')).
    { intros w r r' m m' Hr Hl Hm. pose proof (RNode_pos _ _ _ Hr). assert (1 <= w * c) by nia.
      rewrite <- (rel_eqb _ _ _ _ _ _ Hv (rel_z0 0 ltac:(lia))), <- (rel_eqb _ _ _ _ _ _ Hv (rel_z1 1 ltac:(lia) ltac:(lia))).
      rewrite <- (RNode_cwv _ _ _ 1 n1 n1 Hr (rel_z1 1 ltac:(lia) ltac:(lia))), <- (RNode_const _ _ _ Hr).
      destruct (is_constant r || neqb v n0) eqn:E.
      - destruct Hr; cbn [is_constant] in *; try (apply sim_const; [lia|apply rel_z0; lia]). apply sim_const; [lia|]. apply rel_mul; auto.
      - apply Bool.orb_false_iff in E. destruct E as [E _].
        destruct (is_constant_with_value r n1); [apply sim_const; [lia|]; eapply rel_mono; eauto; nia|].
        destruct (neqb v n1); [apply simM2_ret; eapply RNode_mono; eauto; nia|]. auto. }
    pose proof (RNode_both_ind (fun w r r' => w * c <= lim -> simM2 (RNode (w * c)) (mul_ns r v) (mul_ns r' v'))
                           (fun w l l' => w * c <= lim -> simM2 (RNodes (w * c)) (mapM (fun x => mul_ns x v) l) (mapM (fun x => mul_ns x v') l'))) as B. cbv beta in B.
    assert (Mk : forall w r r', RNode w r r' -> w * c <= lim -> simM2 (RNode (w * c)) (bind (mk_const v) (fun x => mk_mul r x)) (bind (mk_const v') (fun x => mk_mul r' x))).
    { intros w r r' Hr Hl. eapply simM2_bind; [apply (sim_const c); auto|]. intros x x' Hx. apply (sim_mk_mul _ w c); auto. lia. }
    apply B; clear B.
    - intros w1 i x x' Hw Hx Hl. cbn [mul_ns]. apply (Head w1 (NConst i x) (NConst i x')); [constructor; auto|exact Hl|]. cbn. discriminate.
    - intros w1 i x kd Hw Hx Hl. cbn [mul_ns]. apply (Head w1 (NVar i x kd) (NVar i x kd)); [constructor; auto|exact Hl|]. intros _.
      apply (Mk w1); [constructor; auto|exact Hl].
    - intros w1 i l l' Hw Hls IH Hl. cbn [mul_ns]. apply (Head w1 (NAdd i l) (NAdd i l')); [constructor; auto|exact Hl|]. intros _.
      eapply simM2_bind; [apply IH, Hl|]. intros x x' Hx. apply sim_mk_add; [nia|exact Hx].
    - intros w1 w2 w3 i a a' b b' Ha _ Hb _ Hw Hlm Hl. cbn [mul_ns]. apply (Head w1 (NMul i a b) (NMul i a' b')); [econstructor; eauto|exact Hl|]. intros _.
      apply (Mk w1); [econstructor; eauto|exact Hl].
    - intros w1 Hw Hl. apply simM2_ret. constructor. exact Hl.
    - intros w1 w2 w3 a a' l l' Ha IHa Hl IHl Hw Hlm Hb. cbn [mapM]. assert (w2 * c + w3 * c <= w1 * c) by nia.
      eapply simM2_bind; [apply IHa; lia|]. intros x x' Hx.
      eapply simM2_bind; [apply IHl; lia|]. intros xs xs' Hxs. apply simM2_ret. eapply RNcons; eauto; lia.
  Qed.

  (** *** Negation, subtraction *)
  Lemma sim_mul_m1 w n n' : RNode w n n' -> simM2 (RNode w) (mul_sn nm1 n) (mul_sn nm1 n').
  Proof.
    intros Hn. pose proof (RNode_lim _ _ _ Hn). pose proof (RNode_pos _ _ _ Hn). replace w with (1 * w) at 1 by lia.
    apply sim_mul_sn; auto; try lia. apply rel_m1; lia.
  Qed.
  Lemma sim_neg_n w n n' : RNode w n n' -> simM2 (RNode w) (neg_n n) (neg_n n').
  Proof.
    intros Hn. pose proof (sim_mul_m1 _ _ _ Hn) as G. pose proof (RNode_lim _ _ _ Hn) as Hl.
    destruct Hn as [w i v v' Hw Hv|w i s kd Hw Hlm|w i l l' Hw Hls|w wa wb i x x' y y' Hx Hy Hw Hlm]; try exact G.
    cbn [neg_n]. apply sim_const; [lia|]. replace w with (1 * w) by lia. apply rel_mul; auto; [|lia]. apply rel_m1; lia.
  Qed.
  Lemma sim_sub_nn w1 w2 a a' b b' : RNode w1 a a' -> RNode w2 b b' -> w1 + w2 <= lim -> simM2 (RNode (w1 + w2)) (sub_nn a b) (sub_nn a' b').
  Proof.
    intros Ha Hb Hl. unfold sub_nn. eapply simM2_bind; [apply sim_mul_m1; exact Hb|]. intros x x' Hx. apply sim_add_nn; auto.
  Qed.
  Lemma sim_sub_ns w1 w2 a a' v v' : RNode w1 a a' -> 1 <= w2 -> rel w2 v v' -> w1 + w2 <= lim -> simM2 (RNode (w1 + w2)) (sub_ns a v) (sub_ns a' v').
  Proof.
    intros Ha Hw Hv Hl. unfold sub_ns. eapply simM2_bind; [apply (sim_const w2); auto|]. intros c c' Hc.
    eapply simM2_bind; [apply sim_mul_m1; exact Hc|]. intros x x' Hx. apply sim_add_nn; auto.
  Qed.
  Lemma sim_sub_sn w1 w2 v v' b b' : 1 <= w1 -> rel w1 v v' -> RNode w2 b b' -> w1 + w2 <= lim -> simM2 (RNode (w1 + w2)) (sub_sn v b) (sub_sn v' b').
  Proof.
    intros Hw Hv Hb Hl. unfold sub_sn. eapply simM2_bind; [apply (sim_const w1); auto|]. intros c c' Hc.
    eapply simM2_bind; [apply sim_mul_m1; exact Hb|]. intros x x' Hx. apply sim_add_nn; auto.
  Qed.

  (** *** Values *)
  Definition bound_in (vs : vals T1) (vs' : vals T2) (n : node T1) : Prop :=
    forall i s kd, sub (NVar i s kd) n ->
      exists x y, hget ptr_eq (NVar i s kd) vs = Some x /\ hget ptr_eq (NVar i s kd) vs' = Some y /\ rel vw x y.
  Lemma sim_evaluate vs vs' w n n' : RNode w n n' -> bound_in vs vs' n -> rel w (evaluate vs n) (evaluate vs' n').
  Proof.
    revert w n n'.
    pose proof (RNode_both_ind (fun w n n' => bound_in vs vs' n -> rel w (evaluate vs n) (evaluate vs' n'))
      (fun w l l' => (forall a, In a l -> bound_in vs vs' a) -> forall u x y, rel u x y -> u + w <= lim ->
         rel (u + w) (fold_left (fun acc a => nadd acc (evaluate vs a)) l x) (fold_left (fun acc a => nadd acc (evaluate vs' a)) l' y))) as B. cbv beta in B.
    apply B; clear B.
    - intros w i v v' Hw Hv _. exact Hv.
    - intros w i s kd Hw Hl Hb. destruct (Hb i s kd (sub_refl _)) as (x & y & E1 & E2 & Hr). cbn [evaluate]. rewrite E1, E2. eapply rel_mono; eauto.
    - intros w i l l' Hw Hl IH Hb. cbn [evaluate]. replace w with (0 + w) by lia. pose proof (RNodes_lim _ _ _ Hl).
      apply IH; [|apply rel_z0; lia|lia]. intros a Ha j s kd Hs. apply Hb. apply (sub_arg _ a); [exact Ha|exact Hs].
    - intros w w1 w2 i a a' b b' Ha IHa Hb IHb Hw Hl Hbd. cbn [evaluate]. eapply rel_mono; [apply rel_mul; [apply IHa|apply IHb|lia]|lia|lia].
      + intros j s kd Hs. apply Hbd. apply (sub_arg _ a); [cbn; auto|exact Hs].
      + intros j s kd Hs. apply Hbd. apply (sub_arg _ b); [cbn; auto|exact Hs].
    - intros w Hw _ u x y Hr Hl. cbn. eapply rel_mono; eauto; lia.
    - intros w w1 w2 a a' l l' Ha IHa Hl IHl Hw Hlm Hbd u x y Hr Hb. cbn [fold_left].
      eapply rel_mono; [apply IHl; [|apply rel_add; [exact Hr|apply IHa|lia]|lia]|lia|lia]; intros; apply Hbd; cbn; auto.
  Qed.

  (** *** Linear parts *)
  Definition same_var (k : node T1) (k' : node T2) : Prop := exists i s kd, k = NVar i s kd /\ k' = NVar i s kd.
  Lemma same_var_cell k k' : same_var k k' -> same_cell k k'.
  Proof. intros (i & s & kd & -> & ->). cbn. auto. Qed.
  Inductive WL : N -> list (node T1 * T1) -> list (node T2 * T2) -> Prop :=
  | WLnil w : w <= lim -> WL w [] []
  | WLcons w w1 w2 k k' v v' l l' : same_var k k' -> rel w1 v v' -> WL w2 l l' -> w1 + w2 <= w -> w <= lim -> WL w ((k, v) :: l) ((k', v') :: l').
  Lemma WL_lim w l l' : WL w l l' -> w <= lim.
  Proof. destruct 1; auto. Qed.
  Lemma WL_mono w w' l l' : WL w l l' -> w <= w' -> w' <= lim -> WL w' l l'.
  Proof. intros Hr H1 H2. destruct Hr; econstructor; eauto; lia. Qed.
  Lemma WL_len w l l' : WL w l l' -> length l = length l'.
  Proof. induction 1; cbn; congruence. Qed.
  Definition rel' (x : T1) (y : T2) : Prop := exists w, rel w x y.
  Definition kv_rel (kv : node T1 * T1) (kv' : node T2 * T2) : Prop := same_var (fst kv) (fst kv') /\ rel' (snd kv) (snd kv').
  Lemma WL_forall w l l' : WL w l l' -> Forall2 kv_rel l l'.
  Proof. induction 1; constructor; auto. split; [assumption|]. exists w1. assumption. Qed.
  Lemma WL_insert w u k k' v v' l l' : WL w l l' -> same_var k k' -> rel u v v' -> w + u <= lim -> WL (w + u) (hinsert ptr_eq k v l) (hinsert ptr_eq k' v' l').
  Proof.
    intros Hl Hk Hv. induction Hl as [w Hw|w w1 w2 q q' x x' l l' Hq Hx Hl IH Hw Hlm]; intros Hb; cbn [hinsert].
    - eapply (WLcons _ u 0); eauto; [constructor|]; lia.
    - rewrite <- (same_cell_ptr _ _ _ _ (same_var_cell _ _ Hk) (same_var_cell _ _ Hq)). destruct (ptr_eq k q).
      + eapply (WLcons _ u w2); eauto; lia.
      + eapply (WLcons _ w1 (w2 + u)); eauto; [apply IH|]; lia.
  Qed.
  Lemma merge_cons {T} `{Num T} (k q : node T) v x l : merge_add ((q, x) :: l) (k, v) = if ptr_eq k q then (q, nadd x v) :: l else (q, x) :: merge_add l (k, v).
  Proof. unfold merge_add. cbn [fst snd hget hinsert]. destruct (ptr_eq k q); [reflexivity|]. destruct (hget ptr_eq k l); reflexivity. Qed.
  Lemma WL_merge w u k k' v v' l l' : WL w l l' -> same_var k k' -> rel u v v' -> w + u <= lim -> WL (w + u) (merge_add l (k, v)) (merge_add l' (k', v')).
  Proof.
    intros Hl Hk Hv. induction Hl as [w Hw|w w1 w2 q q' x x' l l' Hq Hx Hl IH Hw Hlm]; intros Hb.
    - cbn. eapply (WLcons _ u 0); eauto; [constructor|]; lia.
    - rewrite !merge_cons. rewrite <- (same_cell_ptr _ _ _ _ (same_var_cell _ _ Hk) (same_var_cell _ _ Hq)). destruct (ptr_eq k q).
      + eapply (WLcons _ (w1 + u) w2); eauto; [apply rel_add; auto|..]; lia.
      + eapply (WLcons _ w1 (w2 + u)); eauto; [apply IH|]; lia.
  Qed.
  Lemma WL_merges w l l' : WL w l l' -> forall u a a', WL u a a' -> u + w <= lim -> WL (u + w) (fold_left merge_add l a) (fold_left merge_add l' a').
  Proof.
    induction 1 as [w Hw|w w1 w2 q q' x x' l l' Hq Hx Hl IH Hw Hlm]; intros u a a' Ha Hb; cbn [fold_left].
    - eapply WL_mono; eauto. lia.
    - eapply WL_mono; [apply IH; [apply WL_merge; eauto|]|..]; lia.
  Qed.
  Lemma WL_scales c b b' w l l' : rel c b b' -> WL w l l' -> forall u a a', WL u a a' -> u + w * c <= lim ->
    WL (u + w * c) (fold_left (fun a kv => hinsert ptr_eq (fst kv) (nmul (snd kv) b) a) l a) (fold_left (fun a kv => hinsert ptr_eq (fst kv) (nmul (snd kv) b') a) l' a').
  Proof.
    intros Hc. induction 1 as [w Hw|w w1 w2 q q' x x' l l' Hq Hx Hl IH Hw Hlm]; intros u a a' Ha Hb; cbn [fold_left fst snd].
    - eapply WL_mono; eauto. lia.
    - assert (w1 * c + w2 * c <= w * c) by nia. eapply WL_mono; [apply IH; [apply WL_insert; [eauto|eauto|apply rel_mul; eauto|]|]|..]; lia.
  Qed.

  Definition RP (w : N) (p : std_prop T1) (p' : std_prop T2) : Prop :=
    p_affine p = p_affine p' /\ exists wa wb, WL wa (p_a p) (p_a p') /\ rel wb (p_b p) (p_b p') /\ wa + wb <= w /\ w <= lim.
  Lemma sim_props w n n' : RNode w n n' -> RP w (std_properties n) (std_properties n').
  Proof.
    revert w n n'.
    pose proof (RNode_both_ind (fun w n n' => RP w (std_properties n) (std_properties n'))
      (fun w l l' => forall u p p', RP u p p' -> u + w <= lim ->
         RP (u + w) (fold_left (fun acc x => let p := std_properties x in mk_std_prop (p_affine acc && p_affine p) (fold_left merge_add (p_a p) (p_a acc)) (nadd (p_b acc) (p_b p))) l p)
                    (fold_left (fun acc x => let p := std_properties x in mk_std_prop (p_affine acc && p_affine p) (fold_left merge_add (p_a p) (p_a acc)) (nadd (p_b acc) (p_b p))) l' p'))) as B. cbv beta in B.
    apply B; clear B.
    - intros w i v v' Hw Hv. pose proof (rel_lim _ _ _ Hv). split; [reflexivity|]. exists 0, w. cbn. repeat split; auto; try lia. constructor. lia.
    - intros w i s kd Hw Hl. split; [reflexivity|]. exists 1, 0. cbn. repeat split; auto; try lia; [|apply rel_z0; lia].
      eapply (WLcons _ 1 0); try lia; [exists i, s, kd; auto|apply rel_z1; lia|constructor; lia].
    - intros w i l l' Hw Hl IH. cbn [std_properties]. replace w with (0 + w) by lia. pose proof (RNodes_lim _ _ _ Hl). apply IH; [|lia].
      split; [reflexivity|]. exists 0, 0. cbn. repeat split; auto; try lia; [constructor; lia|apply rel_z0; lia].
    - intros w w1 w2 i a a' b b' Ha (A1 & wa & wb & A2 & A3 & A4 & A5) Hb (B1 & va & vb & B2 & B3 & B4 & B5) Hw Hl.
      cbn [std_properties]. split; cbn [p_affine p_a p_b].
      + rewrite A1, B1, (WL_len _ _ _ A2), (WL_len _ _ _ B2). reflexivity.
      + assert (Hs : wa * vb + va * wb + wb * vb <= w1 * w2).
        { assert (wa * vb + va * wb + wb * vb <= (wa + wb) * (va + vb)) by nia. assert ((wa + wb) * (va + vb) <= w1 * w2) by (apply N.mul_le_mono; lia). lia. }
        exists (0 + wa * vb + va * wb), (wb * vb). repeat split; [|apply rel_mul; auto; lia|lia|lia].
        apply WL_scales; auto; [|lia]. apply WL_scales; auto; [constructor; lia|lia].
    - intros w Hw u p p' (A1 & wa & wb & A2 & A3 & A4 & A5) Hl. cbn. split; [exact A1|]. exists wa, wb. repeat split; auto. lia.
    - intros w w1 w2 a a' l l' Ha (A1 & wa & wb & A2 & A3 & A4 & A5) Hl IH Hw Hlm u p p' (B1 & va & vb & B2 & B3 & B4 & B5) Hb. cbn [fold_left].
      assert (Hst : RP (u + w1) (mk_std_prop (p_affine p && p_affine (std_properties a)) (fold_left merge_add (p_a (std_properties a)) (p_a p)) (nadd (p_b p) (p_b (std_properties a))))
                       (mk_std_prop (p_affine p' && p_affine (std_properties a')) (fold_left merge_add (p_a (std_properties a')) (p_a p')) (nadd (p_b p') (p_b (std_properties a'))))).
      { split; cbn [p_affine p_a p_b]; [rewrite A1, B1; reflexivity|]. exists (va + wa), (vb + wb). repeat split; try lia; [apply WL_merges; auto; lia|apply rel_add; auto; lia]. }
      destruct (IH (u + w1) _ _ Hst ltac:(lia)) as (C1 & ca & cb & C2 & C3 & C4 & C5). split; [exact C1|]. exists ca, cb. repeat split; auto; lia.
  Qed.

  (** *** Standard form of affine models *)
  Context {O1 O2 : HashOrd}.
  (** The hash orders do not depend on the numbers. *)
  Hypothesis Hord : forall A B (R : A -> B -> Prop) s t l l', Forall2 R l l' -> Forall2 R (@ord O1 A s t l) (@ord O2 B s t l').
  (** What is known of given starting points and of what solvers answer. *)
  Variable irel : T1 -> T2 -> Prop.
  Hypothesis rel_irel : forall w x y, rel w x y -> irel x y.
  Hypothesis lim_inf : 100000000 <= lim.

  Definition RPa (p : std_prop T1) (p' : std_prop T2) : Prop := p_affine p = p_affine p' /\ Forall2 kv_rel (p_a p) (p_a p') /\ rel' (p_b p) (p_b p').
  Lemma RP_RPa w p p' : RP w p p' -> RPa p p'.
  Proof. intros (A1 & wa & wb & A2 & A3 & A4 & A5). split; [exact A1|]. split; [eapply WL_forall; eauto|]. exists wb. exact A3. Qed.
  Definition RComp (c : std_comp T1) (c' : std_comp T2) : Prop :=
    Forall2 (fun g g' => same_var (fst g) (fst g')) (sc_gphi c) (sc_gphi c') /\ sc_hphi c = [] /\ sc_hphi c' = [] /\ RPa (sc_prop c) (sc_prop c') /\ p_affine (sc_prop c) = true.
  Lemma sim_std_components w n n' : RNode w n n' -> aff n = true -> simM2 RComp (@std_components T1 _ O1 n) (@std_components T2 _ O2 n').
  Proof.
    intros Hn Ha. pose proof (RP_RPa _ _ _ (sim_props _ _ _ Hn)) as (P1 & P2 & P3). unfold std_components. unfold aff in Ha.
    eapply simM2_bind; [apply simM2_now|]. intros t t' <-. rewrite <- P1, Ha.
    eapply simM2_bind.
    - apply (simM2_mapM kv_rel (fun g g' => same_var (fst g) (fst g'))); [apply Hord; exact P2|]. intros kv kv' (H1 & H2) k. cbn. split; [reflexivity|exact H1].
    - intros g g' Hg. apply simM2_ret. split; [exact Hg|]. split; [reflexivity|]. split; [reflexivity|]. split; [split; [exact P1|split; [exact P2|exact P3]]|exact Ha].
  Qed.
  Definition RObj (o : objective T1) (o' : objective T2) : Prop :=
    match o, o' with
    | Minimize f, Minimize f' | Maximize f, Maximize f' => exists w, RNode w f f'
    | EmptyObj, EmptyObj => True
    | _, _ => False
    end.
  Definition aff_obj {T} `{Num T} (o : objective T) : Prop := match o with Minimize f | Maximize f => aff f = true | EmptyObj => True end.
  Lemma simM2_bind_ok {A B A' B'} (R : A -> A' -> Prop) (Q : B -> B' -> Prop) (P : A -> Prop) m m' f f' :
    simM2 R m m' -> (forall k a k', m k = Ok (a, k') -> P a) -> (forall a b, P a -> R a b -> simM2 Q (f a) (f' b)) -> simM2 Q (bind m f) (bind m' f').
  Proof.
    intros Hm HP Hf k. unfold bind. specialize (Hm k). destruct (m k) as [[a k1]|p] eqn:E, (m' k) as [[b k2]|q]; cbn in Hm; try contradiction; [|exact Hm].
    destruct Hm as [<- Hr]. apply Hf; [eapply HP; eauto|exact Hr].
  Qed.
  Lemma sim_obj_std o o' : RObj o o' -> aff_obj o -> simM2 RComp (@obj_std T1 _ O1 o) (@obj_std T2 _ O2 o').
  Proof.
    intros Ho Ha. destruct o as [f|f|], o' as [f'|f'|]; cbn [RObj aff_obj] in *; try contradiction.
    - destruct Ho as [w Hf]. cbn [obj_std]. eapply sim_std_components; eauto.
    - destruct Ho as [w Hf]. cbn [obj_std]. eapply (simM2_bind_ok (RNode w) _ (fun n => aff n = true)); [apply sim_neg_n; exact Hf| |].
      + intros k n k' E. exact (neg_n_aff f Ha k n k' E).
      + intros a b Haa Hr. eapply sim_std_components; eauto.
    - cbn [obj_std]. eapply (simM2_bind_ok (RNode 1) _ (fun n => aff n = true)); [apply sim_const; [lia|apply rel_z0; lia]| |].
      + intros k n k' E. injection E as <- _. reflexivity.
      + intros a b Haa Hr. eapply sim_std_components; eauto.
  Qed.

  Definition RCon (c : constraint T1) (c' : constraint T2) : Prop :=
    cid c = cid c' /\ ckd c = ckd c' /\ clabel c = clabel c' /\ exists w1 w2, RNode w1 (clhs c) (clhs c') /\ RNode w2 (crhs c) (crhs c') /\ w1 + w2 <= lim.
  Definition aff_con {T} `{Num T} (c : constraint T) : Prop := aff (clhs c) = true /\ aff (crhs c) = true.
  Definition row_rel (e : nat * node T1 * T1) (e' : nat * node T2 * T2) : Prop := fst (fst e) = fst (fst e') /\ same_var (snd (fst e)) (snd (fst e')) /\ rel' (snd e) (snd e').
  Definition bnd_rel (e : node T1 * T1 * constraint T1) (e' : node T2 * T2 * constraint T2) : Prop :=
    same_var (fst (fst e)) (fst (fst e')) /\ rel' (snd (fst e)) (snd (fst e')) /\ RCon (snd e) (snd e').
  Record RCs (x : cstd T1) (x' : cstd T2) : Prop := {
    rc_ca : Forall2 RCon (cs_ca x) (cs_ca x');
    rc_cj : cs_cj x = [] /\ cs_cj x' = [];
    rc_a : Forall2 row_rel (cs_a x) (cs_a x');
    rc_b : Forall2 rel' (cs_b x) (cs_b x');
    rc_f : cs_f x = [] /\ cs_f x' = [];
    rc_j : cs_j x = [] /\ cs_j x' = [];
    rc_h : cs_h x = [] /\ cs_h x' = [];
    rc_u : Forall2 bnd_rel (cs_u x) (cs_u x');
    rc_l : Forall2 bnd_rel (cs_l x) (cs_l x');
    rc_prop : Forall2 RPa (cs_prop x) (cs_prop x') }.
  Definition RCs3 (r : cstd T1 * nat * nat) (r' : cstd T2 * nat * nat) : Prop := RCs (fst (fst r)) (fst (fst r')) /\ snd (fst r) = snd (fst r') /\ snd r = snd r'.
  Lemma RCs_app x x' y y' : RCs x x' -> RCs y y' -> RCs (cstd_app x y) (cstd_app x' y').
  Proof.
    intros [A1 [A2 A2'] A3 A4 [A5 A5'] [A6 A6'] [A7 A7'] A8 A9 A10] [B1 [B2 B2'] B3 B4 [B5 B5'] [B6 B6'] [B7 B7'] B8 B9 B10].
    constructor; cbn [cstd_app cs_ca cs_cj cs_a cs_b cs_f cs_j cs_h cs_u cs_l cs_prop];
      try (apply Forall2_app2; assumption); rewrite ?A2, ?A2', ?A5, ?A5', ?A6, ?A6', ?A7, ?A7', ?B2, ?B2', ?B5, ?B5', ?B6, ?B6', ?B7, ?B7'; auto.
  Qed.
  Lemma rel'_neg x y : rel' x y -> rel' (nneg x) (nneg y).
  Proof. intros [w Hw]. exists w. auto. Qed.
  Lemma rel'_0 : rel' n0 n0.
  Proof. exists 0. apply rel_z0. lia. Qed.
  Lemma rel'_m1 : rel' nm1 nm1.
  Proof. exists 1. apply rel_m1; lia. Qed.
  Lemma kvs_insert k k' v v' l l' : Forall2 kv_rel l l' -> same_var k k' -> rel' v v' -> Forall2 kv_rel (hinsert ptr_eq k v l) (hinsert ptr_eq k' v' l').
  Proof.
    intros Hl Hk Hv. induction Hl as [|[q x] [q' x'] l l' [Hq Hx] Hl IH]; cbn [hinsert]; [repeat constructor; auto|]. cbn [fst snd] in *.
    rewrite <- (same_cell_ptr _ _ _ _ (same_var_cell _ _ Hk) (same_var_cell _ _ Hq)). destruct (ptr_eq k q); constructor; auto; split; auto.
  Qed.
  Lemma sim_is_bound kd p p' : RPa p p' ->
    match is_bound kd p, is_bound kd p' with Some x, Some x' => same_var x x' | None, None => True | _, _ => False end.
  Proof.
    intros (P1 & P2 & P3). unfold is_bound. destruct P2 as [|[k v] [k' v'] l l' [Hk [w Hv]] Hl]; [exact I|]. cbn [fst snd] in *.
    destruct Hl as [|kv kv' l l' Hkv Hl]; [|exact I]. rewrite <- P1, <- (rel_eqb _ _ _ _ _ _ Hv (rel_z1 1 ltac:(lia) ltac:(lia))).
    destruct (p_affine p && neqb v n1 && negb (ckind_eqb kd Equal)); [exact Hk|exact I].
  Qed.
  Lemma sim_constr_std c c' arow jrow : RCon c c' -> aff_con c -> simM2 RCs3 (@constr_std T1 _ O1 c arow jrow) (@constr_std T2 _ O2 c' arow jrow).
  Proof.
    intros Hc [Ha1 Ha2]. pose proof Hc as (C1 & C2 & C3 & w1 & w2 & C4 & C5 & C6). unfold constr_std.
    eapply (simM2_bind_ok (RNode (w1 + w2)) _ (fun n => aff n = true)); [apply sim_sub_nn; auto| |].
    { intros k n k' E. exact (sub_nn_aff _ _ Ha1 Ha2 k n k' E). }
    intros e e' He Hr. eapply simM2_bind; [eapply sim_std_components; eauto|]. intros cp cp' (_ & _ & _ & HP & Haf).
    eapply simM2_bind; [apply simM2_now|]. intros t t' <-. rewrite <- C2. pose proof (sim_is_bound (ckd c) _ _ HP) as Hb.
    pose proof HP as (P1 & P2 & P3).
    destruct (is_bound (ckd c) (sc_prop cp)) as [x|], (is_bound (ckd c) (sc_prop cp')) as [x'|]; try contradiction.
    - assert (Hbd : bnd_rel (x, nneg (p_b (sc_prop cp)), c) (x', nneg (p_b (sc_prop cp')), c')).
      { split; [exact Hb|]. split; [apply rel'_neg; exact P3|exact Hc]. }
      destruct (ckd c); [apply simM2_fail| |]; apply simM2_ret; split; [|cbn; auto| |cbn; auto]; constructor; cbn [fst cs_ca cs_cj cs_a cs_b cs_f cs_j cs_h cs_u cs_l cs_prop];
        auto; repeat (constructor; auto).
    - rewrite <- P1, Haf.
      assert (Hrow : Forall2 row_rel (map (fun kv => (arow, fst kv, snd kv)) (@ord O1 _ 4 t (p_a (sc_prop cp)))) (map (fun kv => (arow, fst kv, snd kv)) (@ord O2 _ 4 t (p_a (sc_prop cp'))))).
      { apply Forall2_map2. eapply Forall2_mono; [|apply Hord; exact P2]. cbn. intros kv kv' [K1 K2]. split; [reflexivity|]. split; auto. }
      assert (Hb1 : Forall2 rel' [nneg (p_b (sc_prop cp))] [nneg (p_b (sc_prop cp'))]) by (constructor; [apply rel'_neg; exact P3|constructor]).
      destruct (ckind_eqb (ckd c) Equal) eqn:Ek.
      + apply simM2_ret. split; [|cbn; auto]. constructor; cbn [fst cs_ca cs_cj cs_a cs_b cs_f cs_j cs_h cs_u cs_l cs_prop]; auto.
      + eapply (simM2_bind same_var); [intros k; cbn; split; [reflexivity|]; do 3 eexists; split; reflexivity|]. intros s s' Hs.
        eapply (simM2_bind (fun ul ul' => Forall2 bnd_rel (fst ul) (fst ul') /\ Forall2 bnd_rel (snd ul) (snd ul'))).
        * apply simM2_lift. unfold slack_bounds. rewrite <- C2. destruct (ckd c); cbn; [reflexivity|..];
            (split; repeat match goal with |- Forall2 _ _ _ => constructor end; split; [exact Hs|split; [exact rel'_0|exact Hc]]).
        * intros ul ul' [U1 U2]. apply simM2_ret. split; [|cbn; auto]. constructor; cbn [fst cs_ca cs_cj cs_a cs_b cs_f cs_j cs_h cs_u cs_l cs_prop]; auto.
          -- apply Forall2_app2; [exact Hrow|]. constructor; [|constructor]. split; [reflexivity|]. split; [exact Hs|exact rel'_m1].
          -- constructor; [|constructor]. split; cbn [p_affine p_a p_b]; [reflexivity|]. split; [|exact P3]. apply kvs_insert; auto. exact rel'_m1.
  Qed.
  Lemma sim_constrs_std cs cs' : Forall2 RCon cs cs' -> Forall aff_con cs -> simM2 RCs3 (@constrs_std T1 _ O1 cs) (@constrs_std T2 _ O2 cs').
  Proof.
    intros Hc Ha. unfold constrs_std.
    apply (simM2_foldM (fun c c' => RCon c c' /\ aff_con c) RCs3).
    - clear -Hc Ha. induction Hc as [|c c' cs cs' H Hc IH]; [constructor|]. inversion Ha; subst. constructor; auto.
    - intros [[x a] j] [[x' a'] j'] c c' [H1 H2] (Q1 & Q2 & Q3). cbn [fst snd] in *. subst a' j'.
      eapply simM2_bind; [apply sim_constr_std; auto|]. intros [[y b] l] [[y' b'] l'] (Q4 & Q5 & Q6). cbn [fst snd] in *. subst.
      apply simM2_ret. split; [apply RCs_app; auto|cbn; auto].
    - split; [|cbn; auto]. constructor; cbn; auto.
  Qed.
  Definition RModel (m : model T1) (m' : model T2) : Prop :=
    RObj (md_objective m) (md_objective m') /\ Forall2 RCon (md_constraints m) (md_constraints m') /\
    Forall2 (fun kv kv' => (exists w, RNode w (fst kv) (fst kv')) /\ irel (snd kv) (snd kv')) (md_init m) (md_init m') /\
    md_status m = md_status m' /\
    Forall2 (fun kv kv' => same_var (fst kv) (fst kv') /\ irel (snd kv) (snd kv')) (md_primals m) (md_primals m') /\
    Forall2 (fun kv kv' => RCon (fst kv) (fst kv') /\ irel (snd kv) (snd kv')) (md_duals m) (md_duals m').
  Definition aff_mod {T} `{Num T} (m : model T) : Prop := aff_obj (md_objective m) /\ Forall aff_con (md_constraints m).
  Lemma sim_model_std m m' : RModel m m' -> aff_mod m -> simM2 (fun oc oc' => RComp (fst oc) (fst oc') /\ RCs (snd oc) (snd oc')) (@model_std T1 _ O1 m) (@model_std T2 _ O2 m').
  Proof.
    intros (M1 & M2 & _) [A1 A2]. unfold model_std. eapply simM2_bind; [apply sim_obj_std; eauto|]. intros c c' Hc.
    eapply simM2_bind; [apply sim_constrs_std; eauto|]. intros r r' (Hr & _). apply simM2_ret. split; auto.
  Qed.

  (** *** The problem *)
  Lemma smem_sim k k' l l' : same_var k k' -> Forall2 same_var l l' -> smem ptr_eq k l = smem ptr_eq k' l'.
  Proof.
    intros Hk. unfold smem. induction 1 as [|a b l l' Hab Hl IH]; [reflexivity|]. cbn [existsb].
    rewrite (same_cell_ptr _ _ _ _ (same_var_cell _ _ Hk) (same_var_cell _ _ Hab)), IH. reflexivity.
  Qed.
  Lemma sextend_sim l l' : Forall2 same_var l l' -> forall s s', Forall2 same_var s s' -> Forall2 same_var (sextend ptr_eq s l) (sextend ptr_eq s' l').
  Proof.
    unfold sextend. induction 1 as [|a b l l' Hab Hl IH]; intros s s' Hs; [exact Hs|]. cbn [fold_left]. apply IH. unfold sadd.
    rewrite <- (smem_sim _ _ _ _ Hab Hs). destruct (smem ptr_eq a s); [exact Hs|]. apply Forall2_app2; [exact Hs|]. constructor; auto.
  Qed.
  Lemma var_set_sim p p' ps ps' : RPa p p' -> Forall2 RPa ps ps' -> Forall2 same_var (var_set p ps) (var_set p' ps').
  Proof.
    intros (_ & P2 & _) Hps. unfold var_set.
    assert (K : forall l l', Forall2 kv_rel l l' -> Forall2 same_var (map fst l) (map fst l')).
    { intros l l' Hl. apply Forall2_map2. eapply Forall2_mono; [|exact Hl]. intros a b [H1 _]. exact H1. }
    assert (S0 : Forall2 same_var (sextend ptr_eq [] (map fst (p_a p))) (sextend ptr_eq [] (map fst (p_a p')))) by (apply sextend_sim; auto).
    revert S0. generalize (sextend ptr_eq [] (map fst (p_a p))) (sextend ptr_eq [] (map fst (p_a p'))). clear p p' P2.
    induction Hps as [|q q' ps ps' (_ & Q2 & _) Hps IH]; intros s s' Hs; [exact Hs|]. cbn [fold_left]. apply IH. apply sextend_sim; auto.
  Qed.
  Lemma sort_sim l l' : Forall2 same_var l l' -> Forall2 same_var (sort_vars l) (sort_vars l').
  Proof.
    unfold sort_vars. induction 1 as [|a b l l' Hab Hl IH]; [constructor|]. cbn [fold_right].
    assert (Hn : forall x y, same_var x y -> name x = name y) by (intros x y (i & s & kd & -> & ->); reflexivity).
    revert IH. generalize (fold_right sort_insert [] l) (fold_right sort_insert [] l'). intros r r' Hr. clear Hl l l'.
    induction Hr as [|c d r r' Hcd Hr IH]; cbn [sort_insert]; [repeat constructor; auto|].
    rewrite <- (Hn _ _ Hab), <- (Hn _ _ Hcd). destruct (String.leb (name a) (name c)); constructor; auto.
  Qed.
  Definition vi_rel (vi : node T1 * nat) (vi' : node T2 * nat) : Prop := same_var (fst vi) (fst vi') /\ snd vi = snd vi'.
  Lemma enum_sim {A B} (R : A -> B -> Prop) l l' : Forall2 R l l' -> Forall2 (fun x y => fst x = fst y /\ R (snd x) (snd y)) (enum l) (enum l').
  Proof.
    unfold enum. intros Hl. rewrite <- (Forall2_len _ _ _ Hl). generalize 0%nat. induction Hl as [|a b l l' Hab Hl IH]; intros n; [constructor|].
    cbn. constructor; [cbn; auto|]. apply IH.
  Qed.
  Lemma v2i_sim l l' : Forall2 same_var l l' -> Forall2 vi_rel (map (fun iv => (snd iv, fst iv)) (enum l)) (map (fun iv => (snd iv, fst iv)) (enum l')).
  Proof. intros Hl. apply Forall2_map2. eapply Forall2_mono; [|apply enum_sim; exact Hl]. intros a b [H1 H2]. split; cbn; auto. Qed.
  Lemma hget_v2i k k' l l' : same_cell k k' -> Forall2 vi_rel l l' -> hget ptr_eq k l = hget ptr_eq k' l'.
  Proof.
    intros Hk. induction 1 as [|[a x] [b y] l l' [H1 H2] Hl IH]; [reflexivity|]. cbn [hget fst snd] in *. subst y.
    rewrite (same_cell_ptr _ _ _ _ Hk (same_var_cell _ _ H1)), IH. reflexivity.
  Qed.
  Lemma vidx_sim k k' l l' : same_var k k' -> Forall2 vi_rel l l' -> vidx l k = vidx l' k'.
  Proof. intros Hk Hl. unfold vidx. rewrite (hget_v2i k k' l l'); auto. apply same_var_cell, Hk. Qed.
  Lemma vidxs_sim {A B} (f : A -> node T1) (g : B -> node T2) l l' v v' : Forall2 (fun a b => same_var (f a) (g b)) l l' -> Forall2 vi_rel v v' ->
    mapR (fun a => vidx v (f a)) l = mapR (fun b => vidx v' (g b)) l'.
  Proof.
    intros Hl Hv. induction Hl as [|a b l l' Hab Hl IH]; [reflexivity|]. cbn [mapR]. rewrite (vidx_sim _ _ _ _ Hab Hv), IH. reflexivity.
  Qed.

  Definition RCoo (m : coo T1) (m' : coo T2) : Prop :=
    coo_rows m = coo_rows m' /\ coo_cols m = coo_cols m' /\ coo_ri m = coo_ri m' /\ coo_ci m = coo_ci m' /\ Forall2 rel' (coo_data m) (coo_data m').
  Record RBase (p : minlp T1) (p' : minlp T2) : Prop := {
    rb_x0 : match m_x0 p, m_x0 p' with Some x, Some x' => Forall2 irel x x' | None, None => True | _, _ => False end;
    rb_a : RCoo (m_a p) (m_a p');
    rb_b : Forall2 rel' (m_b p) (m_b p');
    rb_l : Forall2 rel' (m_l p) (m_l p');
    rb_u : Forall2 rel' (m_u p) (m_u p');
    rb_p : m_p p = m_p p' }.
  Definition RProb (p : problem T1) (p' : problem T2) : Prop :=
    match p, p' with
    | PLp q, PLp q' => Forall2 rel' (milp_c (lp_milp q)) (milp_c (lp_milp q')) /\ RBase (milp_base (lp_milp q)) (milp_base (lp_milp q')) /\ RBase (nlp_base (lp_nlp q)) (nlp_base (lp_nlp q'))
    | PMilp q, PMilp q' => Forall2 rel' (milp_c q) (milp_c q') /\ RBase (milp_base q) (milp_base q')
    | _, _ => False
    end.
  Lemma minlp_lin_sim (z z' : nat) a a' b b' l l' u u' p x x' (ev : eval_fn T1) (ev' : eval_fn T2) : z = z' ->
    RCoo a a' -> Forall2 rel' b b' -> Forall2 rel' l l' -> Forall2 rel' u u' -> Forall2 irel x x' ->
    simR RBase (minlp_new (coo_from_nnz z z 0) a b (coo_from_nnz 0 z 0) [] l u p (Some x) ev) (minlp_new (coo_from_nnz z' z' 0) a' b' (coo_from_nnz 0 z' 0) [] l' u' p (Some x') ev').
  Proof.
    intros <- Ha Hb Hl Hu Hx. pose proof Ha as (A1 & A2 & A3 & A4 & A5). unfold minlp_new. cbn [coo_cols coo_rows coo_from_nnz length forallb].
    rewrite <- A1, <- A2, <- (Forall2_len _ _ _ Hb), <- (Forall2_len _ _ _ Hl), <- (Forall2_len _ _ _ Hu).
    repeat match goal with |- context [rassert ?b] => destruct b; cbn [rassert rbind]; [|reflexivity] end.
    cbn. constructor; cbn; auto.
  Qed.
  Lemma vsets_sim (R : T1 -> T2 -> Prop) v v' l l' : Forall2 vi_rel v v' -> Forall2 (fun kv kv' => same_var (fst kv) (fst kv') /\ R (snd kv) (snd kv')) l l' ->
    forall c c', Forall2 R c c' ->
    simR (Forall2 R) (foldR (fun c kv => rbind (vidx v (fst kv)) (fun i => vset c i (snd kv))) l c) (foldR (fun c kv => rbind (vidx v' (fst kv)) (fun i => vset c i (snd kv))) l' c').
  Proof.
    intros Hv Hl. apply (simR_foldR _ _ _ _ _ _ Hl). intros s s' [k x] [k' x'] [H1 H2] Hs. cbn [fst snd] in *. rewrite <- (vidx_sim _ _ _ _ H1 Hv).
    destruct (vidx v k); cbn; [|reflexivity]. apply vset_sim; auto.
  Qed.
  Definition ic_rel (ic : nat * constraint T1) (ic' : nat * constraint T2) : Prop := fst ic = fst ic' /\ RCon (snd ic) (snd ic').
  Lemma ic_insert i c c' l l' : Forall2 ic_rel l l' -> RCon c c' -> Forall2 ic_rel (hinsert Nat.eqb i c l) (hinsert Nat.eqb i c' l').
  Proof.
    intros Hl Hc. induction Hl as [|[j d] [j' d'] l l' [H1 H2] Hl IH]; cbn [hinsert]; [constructor; [split; auto|constructor]|]. cbn [fst snd] in H1, H2. subst j'.
    destruct (Nat.eqb i j); constructor; auto; split; auto.
  Qed.
  Definition bs_rel (s : list T1 * list (nat * constraint T1)) (s' : list T2 * list (nat * constraint T2)) : Prop := Forall2 rel' (fst s) (fst s') /\ Forall2 ic_rel (snd s) (snd s').
  Lemma bounds_sim better better' v v' l l' :
    (forall x y x' y', rel' x x' -> rel' y y' -> better x y = better' x' y') -> Forall2 vi_rel v v' -> Forall2 bnd_rel l l' ->
    forall s s', bs_rel s s' -> simR bs_rel (foldR (bound_step better v) l s) (foldR (bound_step better' v') l' s').
  Proof.
    intros Hbt Hv Hl. apply (simR_foldR _ _ _ _ _ _ Hl). intros [d m] [d' m'] [[k x] c] [[k' x'] c'] (H1 & H2 & H3) [S1 S2]. cbn [fst snd bound_step] in *.
    rewrite <- (vidx_sim _ _ _ _ H1 Hv). destruct (vidx v k) as [i|]; cbn [rbind]; [|reflexivity].
    eapply simR_bind; [apply vget_sim; exact S1|]. intros y y' Hy. rewrite <- (Hbt _ _ _ _ H2 Hy). destruct (better x y); [|split; auto].
    eapply simR_bind; [apply vset_sim; eauto|]. intros e e' He. split; [exact He|]. apply ic_insert; auto.
  Qed.

  Record RSP (sp : std_prob T1) (sp' : std_prob T2) : Prop := {
    rs_prob : RProb (sp_prob sp) (sp_prob sp');
    rs_v2i : Forall2 vi_rel (sp_var2index sp) (sp_var2index sp');
    rs_ac : Forall2 ic_rel (sp_acons sp) (sp_acons sp');
    rs_jc : sp_jcons sp = [] /\ sp_jcons sp' = [];
    rs_uc : Forall2 ic_rel (sp_ucons sp) (sp_ucons sp');
    rs_lc : Forall2 ic_rel (sp_lcons sp) (sp_lcons sp') }.

  Lemma simR_eq {A} (m m' : res A) : m = m' -> simR eq m m'.
  Proof. intros <-. destruct m; reflexivity. Qed.
  Lemma sim_build t init init' obj obj' cs cs' :
    Forall2 (fun kv kv' => same_cell (fst kv) (fst kv') /\ irel (snd kv) (snd kv')) init init' -> RComp obj obj' -> RCs cs cs' ->
    simR RSP (@build_problem T1 _ O1 t init obj cs) (@build_problem T2 _ O2 t init' obj' cs').
  Proof.
    intros Hi (G1 & G2 & G3 & HP & Haf) [C1 [C2 C2'] C3 C4 [C5 C5'] [C6 C6'] [C7 C7'] C8 C9 C10]. pose proof HP as (P1 & P2 & P3).
    unfold build_problem. rewrite G2, G3, C2, C2', C5, C5', C6, C6', C7, C7'. clear G2 G3 C2 C2' C5 C5' C6 C6' C7 C7'.
    pose proof (var_set_sim _ _ _ _ HP C10) as Hvs. pose proof (Forall2_len _ _ _ Hvs) as En. rewrite <- En.
    set (n := length (var_set (sc_prop obj) (cs_prop cs))) in *.
    pose proof (v2i_sim _ _ (sort_sim _ _ (Hord _ _ _ 5%nat t _ _ Hvs))) as Hv.
    revert Hv. generalize (map (fun iv : nat * node T1 => (snd iv, fst iv)) (enum (sort_vars (@ord O1 _ 5 t (var_set (sc_prop obj) (cs_prop cs)))))) as v.
    generalize (map (fun iv : nat * node T2 => (snd iv, fst iv)) (enum (sort_vars (@ord O2 _ 5 t (var_set (sc_prop obj') (cs_prop cs')))))) as v'. intros v' v Hv.
    eapply (simR_bind eq); [apply simR_eq, (vidxs_sim fst fst); [exact G1|exact Hv]|]. intros gi gi' <-.
    eapply (simR_bind (fun hp hp' => fst hp = mk_coo n n [] [] [] /\ fst hp' = mk_coo n n [] [] [])); [cbn; auto|]. intros hp hp' [Hp1 Hp2].
    eapply simR_bind; [apply (vsets_sim rel' v v'); [exact Hv|apply Hord; exact P2|apply Forall2_repeat; exact rel'_0]|]. intros cd cd' Hcd.
    rewrite <- (Forall2_len _ _ _ C4).
    eapply (simR_bind eq).
    { apply simR_eq, (vidxs_sim (fun e : nat * node T1 * T1 => snd (fst e)) (fun e : nat * node T2 * T2 => snd (fst e))); [|exact Hv].
      eapply Forall2_mono; [|exact C3]. intros a b (_ & H2 & _). exact H2. }
    intros ac ac' <-.
    assert (Er : map (fun e : nat * node T1 * T1 => fst (fst e)) (cs_a cs) = map (fun e : nat * node T2 * T2 => fst (fst e)) (cs_a cs')).
    { clear -C3. induction C3 as [|a b l l' (H1 & _) Hl IH]; [reflexivity|]. cbn. rewrite H1, IH. reflexivity. }
    assert (Ed : Forall2 rel' (map snd (cs_a cs)) (map snd (cs_a cs'))).
    { apply Forall2_map2. eapply Forall2_mono; [|exact C3]. intros a b (_ & _ & H3). exact H3. }
    eapply (simR_bind (fun a a' => RCoo a a' /\ coo_cols a = n)).
    { unfold coo_new. rewrite <- Er, <- (Forall2_len _ _ _ Ed).
      repeat match goal with |- context [rassert ?b] => destruct b; cbn [rassert rbind]; [|reflexivity] end.
      cbn. repeat split; auto. }
    intros am am' [Ham Han]. cbn [length map mapR rbind repeat coo_new].
    cbn [rassert rbind Nat.eqb].
    eapply (simR_bind bs_rel).
    { apply bounds_sim; auto.
      - intros x y x' y' [w H1] [w' H2]. eapply rel_leb; eauto.
      - split; [apply Forall2_repeat; exists 100000000; apply rel_lit; [cbn; lia|exact lim_inf]|constructor]. }
    intros ub ub' [U1 U2].
    eapply (simR_bind bs_rel).
    { apply bounds_sim; auto.
      - intros x y x' y' [w H1] [w' H2]. eapply rel_leb; eauto.
      - split; [apply Forall2_repeat; apply rel'_neg; exists 100000000; apply rel_lit; [cbn; lia|exact lim_inf]|constructor]. }
    intros lb lb' [L1 L2].
    eapply (simR_bind eq).
    { apply (simR_foldR vi_rel eq); [apply Hord; exact Hv| |reflexivity]. intros s s' [k i] [k' i'] [(j & nm & kd & E1 & E2) H2] <-. cbn [fst snd] in *. subst k k' i'.
      cbn [is_integer]. destruct kd; cbn; [reflexivity|]. destruct (vset (fst s) i true); reflexivity. }
    intros pi pi' <-.
    eapply (simR_bind (Forall2 irel)).
    { apply (simR_foldR (fun kv kv' => same_cell (fst kv) (fst kv') /\ irel (snd kv) (snd kv')) (Forall2 irel)); [apply Hord; exact Hi| |apply Forall2_repeat; eapply rel_irel, rel_z0; apply N.le_0_l].
      intros s s' [k x] [k' x'] [H1 H2] Hs. cbn [fst snd] in *. rewrite <- (hget_v2i _ _ _ _ H1 Hv). destruct (hget ptr_eq k v); [|exact Hs]. apply vset_sim; auto. }
    intros x0 x0' Hx0. rewrite <- P1, Haf. cbn [andb Nat.eqb].
    eapply (simR_bind RProb).
    - pose proof Ham as (_ & A2 & _). destruct (Nat.eqb (snd pi) 0) eqn:Ei.
      + unfold lp_new, milp_new, nlp_new. rewrite <- A2, <- (Forall2_len _ _ _ Hcd).
        pose proof (minlp_lin_sim (coo_cols am) _ am am' (cs_b cs) (cs_b cs') (fst lb) (fst lb') (fst ub) (fst ub') (repeat false (length cd)) x0 x0' (linear_eval cd) (linear_eval cd') eq_refl Ham C4 L1 U1 Hx0) as Q1.
        pose proof (minlp_lin_sim (length cd) _ am am' (cs_b cs) (cs_b cs') (fst lb) (fst lb') (fst ub) (fst ub') (repeat false (coo_cols am)) x0 x0' (linear_eval cd) (linear_eval cd') eq_refl Ham C4 L1 U1 Hx0) as Q2.
        destruct (minlp_new (coo_from_nnz (coo_cols am) _ 0) am (cs_b cs) _ [] (fst lb) (fst ub) _ (Some x0) _), (minlp_new (coo_from_nnz (coo_cols am) _ 0) am' (cs_b cs') _ [] (fst lb') (fst ub') _ (Some x0') _); cbn in Q1; try contradiction; cbn [rbind]; [|exact Q1].
        destruct (minlp_new (coo_from_nnz (length cd) _ 0) am (cs_b cs) _ [] (fst lb) (fst ub) _ (Some x0) _), (minlp_new (coo_from_nnz (length cd) _ 0) am' (cs_b cs') _ [] (fst lb') (fst ub') _ (Some x0') _); cbn in Q2; try contradiction; cbn [rbind]; [|exact Q2].
        cbn. auto.
      + destruct (snd pi) as [|q]; [discriminate|]. cbn [Nat.ltb Nat.leb]. unfold milp_new. rewrite <- A2.
        pose proof (minlp_lin_sim (coo_cols am) _ am am' (cs_b cs) (cs_b cs') (fst lb) (fst lb') (fst ub) (fst ub') (fst pi) x0 x0' (linear_eval cd) (linear_eval cd') eq_refl Ham C4 L1 U1 Hx0) as Q1.
        destruct (minlp_new (coo_from_nnz (coo_cols am) _ 0) am (cs_b cs) _ [] (fst lb) (fst ub) _ (Some x0) _), (minlp_new (coo_from_nnz (coo_cols am) _ 0) am' (cs_b cs') _ [] (fst lb') (fst ub') _ (Some x0') _); cbn in Q1; try contradiction; cbn [rbind]; [|exact Q1].
        cbn. auto.
    - intros pr pr' Hpr. constructor; cbn [sp_prob sp_var2index sp_acons sp_jcons sp_ucons sp_lcons]; auto. apply enum_sim. exact C1.
  Qed.
  Theorem sim_std_problem m m' : RModel m m' -> aff_mod m -> simM2 RSP (@std_problem T1 _ O1 m) (@std_problem T2 _ O2 m').
  Proof.
    intros Hm Ha. unfold std_problem. eapply simM2_bind; [apply sim_model_std; eauto|]. intros oc oc' [H1 H2].
    eapply simM2_bind; [apply simM2_now|]. intros t t' <-. apply simM2_lift. destruct Hm as (_ & _ & M3 & _). apply sim_build; auto.
    eapply Forall2_mono; [|exact M3]. intros kv kv' [[w Hw] Hi]. split; [eapply RNode_cell; exact Hw|exact Hi].
  Qed.

  (** *** Solving *)
  Definition RSol (s : sol T1) (s' : sol T2) : Prop :=
    Forall2 irel (s_x s) (s_x s') /\ Forall2 irel (s_lam s) (s_lam s') /\ Forall2 irel (s_nu s) (s_nu s') /\ Forall2 irel (s_mu s) (s_mu s') /\ Forall2 irel (s_pi s) (s_pi s').
  Definition lp_rel {A B} (R : A -> B -> Prop) (r : A * option panic) (r' : B * option panic) : Prop := R (fst r) (fst r') /\ snd r = snd r'.
  Lemma loop_sim {S S' A A'} (R : S -> S' -> Prop) (Q : A -> A' -> Prop) f f' l l' :
    Forall2 Q l l' -> (forall s s' a a', R s s' -> Q a a' -> simR R (f s a) (f' s' a')) -> forall s s', R s s' -> lp_rel R (loop_st f l s) (loop_st f' l' s').
  Proof.
    intros Hl Hf. induction Hl as [|a a' l l' Ha Hl IH]; intros s s' Hs; cbn [loop_st]; [split; auto|].
    pose proof (Hf _ _ _ _ Hs Ha) as G. destruct (f s a), (f' s' a'); cbn in G; try contradiction; [apply IH; exact G|]. subst. split; auto.
  Qed.
  Lemma then_sim {S S'} (R : S -> S' -> Prop) r r' f f' : lp_rel R r r' -> (forall s s', R s s' -> lp_rel R (f s) (f' s')) -> lp_rel R (then_loop r f) (then_loop r' f').
  Proof.
    destruct r as [a o], r' as [a' o']. intros [H1 H2] Hf. cbn [fst snd] in H1, H2. subst o'. unfold then_loop. cbn [fst snd]. destruct o; [split; auto|]. apply Hf. exact H1.
  Qed.
  Lemma primal_insert k k' v v' l l' : Forall2 (fun kv kv' => same_var (fst kv) (fst kv') /\ irel (snd kv) (snd kv')) l l' -> same_var k k' -> irel v v' ->
    Forall2 (fun kv kv' => same_var (fst kv) (fst kv') /\ irel (snd kv) (snd kv')) (hinsert ptr_eq k v l) (hinsert ptr_eq k' v' l').
  Proof.
    intros Hl Hk Hv. induction Hl as [|[q x] [q' x'] l l' [Hq Hx] Hl IH]; cbn [hinsert]; [constructor; [split; auto|constructor]|]. cbn [fst snd] in Hq, Hx.
    rewrite <- (same_cell_ptr _ _ _ _ (same_var_cell _ _ Hk) (same_var_cell _ _ Hq)). destruct (ptr_eq k q); constructor; auto; split; auto.
  Qed.
  Lemma dual_insert k k' v v' l l' : Forall2 (fun kv kv' => RCon (fst kv) (fst kv') /\ irel (snd kv) (snd kv')) l l' -> RCon k k' -> irel v v' ->
    Forall2 (fun kv kv' => RCon (fst kv) (fst kv') /\ irel (snd kv) (snd kv')) (hinsert constr_eqb k v l) (hinsert constr_eqb k' v' l').
  Proof.
    intros Hl Hk Hv. induction Hl as [|[q x] [q' x'] l l' [Hq Hx] Hl IH]; cbn [hinsert]; [constructor; [split; auto|constructor]|]. cbn [fst snd] in Hq, Hx.
    unfold constr_eqb. rewrite <- (proj1 Hk), <- (proj1 Hq). fold (constr_eqb k q). destruct (constr_eqb k q); constructor; auto; split; auto.
  Qed.
  Lemma add_primal_sim s s' m m' vi vi' : RSol s s' -> RModel m m' -> vi_rel vi vi' -> simR RModel (add_primal s m vi) (add_primal s' m' vi').
  Proof.
    intros (S1 & _) (M1 & M2 & M3 & M4 & M5 & M6) [V1 V2]. unfold add_primal. rewrite <- V2. eapply simR_bind; [apply vget_sim; exact S1|].
    intros x y Hx. cbn. repeat split; auto. apply primal_insert; auto.
  Qed.
  Lemma add_dual_sim d d' m m' ic ic' : Forall2 irel d d' -> RModel m m' -> ic_rel ic ic' -> simR RModel (add_dual d m ic) (add_dual d' m' ic').
  Proof.
    intros S1 (M1 & M2 & M3 & M4 & M5 & M6) [V1 V2]. unfold add_dual. rewrite <- V1. eapply simR_bind; [apply vget_sim; exact S1|].
    intros x y Hx. cbn. repeat split; auto. apply dual_insert; auto.
  Qed.
  Lemma sim_record t sp sp' st s s' m m' : RSP sp sp' -> RSol s s' -> RModel m m' ->
    lp_rel RModel (@record_solution T1 O1 t sp st s m) (@record_solution T2 O2 t sp' st s' m').
  Proof.
    intros [P0 P1 P2 [P3 P3'] P4 P5] Hs (M1 & M2 & M3 & M4 & M5 & M6). unfold record_solution. pose proof Hs as (S1 & S2 & S3 & S4 & S5).
    rewrite P3, P3'.
    repeat (apply then_sim; [|intros ? ? ?]);
      (eapply loop_sim; [apply Hord; eauto|intros; first [apply add_primal_sim; eassumption | apply add_dual_sim; eassumption]|]); try eassumption.
    repeat split; auto.
  Qed.
  Lemma reset_sim m m' : RModel m m' -> RModel (reset m) (reset m').
  Proof. intros (M1 & M2 & M3 & M4 & M5 & M6). repeat split; auto; constructor. Qed.
  Definition ans_rel (a : res (@answer T1)) (a' : res (@answer T2)) : Prop :=
    simR (fun a a' => match a, a' with
                      | inl (st, s), inl (st', s') => st = st' /\ RSol s s'
                      | inr e, inr e' => e = e'
                      | _, _ => False
                      end) a a'.
  Theorem sim_solve f f' m m' k : RModel m m' -> aff_mod m ->
    (forall sp sp' k1, @std_problem T1 _ O1 (reset m) k = Ok (sp, k1) -> @std_problem T2 _ O2 (reset m') k = Ok (sp', k1) -> RSP sp sp' -> ans_rel (f (sp_prob sp)) (f' (sp_prob sp'))) ->
    let r := @solve T1 _ O1 f m k in let r' := @solve T2 _ O2 f' m' k in
    RModel (fst (fst r)) (fst (fst r')) /\ snd (fst r) = snd (fst r') /\ snd r = snd r'.
  Proof.
    intros Hm Ha Hf. cbv zeta. pose proof (reset_sim _ _ Hm) as Hr. assert (Har : aff_mod (reset m)) by exact Ha.
    pose proof (sim_std_problem _ _ Hr Har k) as G. unfold solve.
    destruct (@std_problem T1 _ O1 (reset m) k) as [[sp k1]|p] eqn:E1, (@std_problem T2 _ O2 (reset m') k) as [[sp' k2]|q] eqn:E2; cbn in G; try contradiction.
    2: { cbn. subst. auto. }
    destruct G as [<- G]. specialize (Hf sp sp' k1 eq_refl eq_refl G). unfold ans_rel in Hf.
    destruct (f (sp_prob sp)) as [[[st s]|e]|p], (f' (sp_prob sp')) as [[[st' s']|e']|p']; cbn in Hf; try contradiction; try (subst; cbn; auto; fail).
    destruct Hf as [<- Hs]. pose proof (sim_record k1 sp sp' st s s' _ _ G Hs Hr) as [R1 R2].
    destruct (@record_solution T1 O1 k1 sp st s (reset m)) as [m1 o1], (@record_solution T2 O2 k1 sp' st s' (reset m')) as [m2 o2]. cbn [fst snd] in *. subst o2.
    destruct o1; cbn; auto.
  Qed.
End ExactSim.
