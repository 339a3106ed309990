(** The set of expressions built so far, and what every operation preserves.

    [world nsq k S]: [S] is a set of nodes closed under arguments, all with
    addresses below the allocation counter [k], one node per address, every
    node in the shape the operators produce ([shape]). *)
From Verif Require Import Base Num Node NodeDiff NodeInd.

Section Shape.
  Context {T : Type} `{Num T}.

  Definition is_add (n : node T) : bool := match n with NAdd _ _ => true | _ => false end.

  (** Arguments of a sum: no sums among them, only the last may be a constant. *)
  Fixpoint add_args_ok (args : list (node T)) : bool :=
    match args with
    | [] => false
    | [a] => negb (is_add a)
    | a :: args' => negb (is_add a) && negb (is_constant a) && add_args_ok args'
    end.

  Definition shape (nsq : bool) (n : node T) : Prop :=
    match n with
    | NConst _ _ | NVar _ _ _ => True
    | NAdd _ args => 2 <= length args /\ add_args_ok args = true
    | NCos _ a | NSin _ a => is_constant a = false
    | NMul _ a b => is_constant a && is_constant b = false
    | NDiv _ a b => is_constant a && is_constant b = false
                    /\ is_constant_with_value b n0 = false
                    /\ (nsq = true -> nid a <> nid b)
    end.

  Record world (nsq : bool) (k : nat) (S : node T -> Prop) : Prop := {
    w_closed : forall n c, S n -> In c (arguments n) -> S c;
    w_lt : forall n, S n -> nid n < k;
    w_coh : forall n n', S n -> S n' -> nid n = nid n' -> n = n';
    w_shape : forall n, S n -> shape nsq n
  }.

  Definition incl (S S' : node T -> Prop) : Prop := forall n, S n -> S' n.

  Lemma incl_refl S : incl S S. Proof. intros n Hn; exact Hn. Qed.
  Lemma incl_trans S1 S2 S3 : incl S1 S2 -> incl S2 S3 -> incl S1 S3.
  Proof. intros H1 H2 n Hn; auto. Qed.

  (** [grows nsq k S m Q]: run in world [S], [m] leads to a larger world and a
      result satisfying [Q]. *)
  Definition grows {A} (nsq : bool) (k : nat) (S : node T -> Prop) (m : M A)
             (Q : A -> (node T -> Prop) -> Prop) : Prop :=
    forall a k', m k = Ok (a, k') ->
    k <= k' /\ exists S', incl S S' /\ world nsq k' S' /\ Q a S'.

  Definition here : node T -> (node T -> Prop) -> Prop := fun n S => S n.
  Definition heres : list (node T) -> (node T -> Prop) -> Prop := fun l S => Forall S l.

  Lemma grows_ret {A} nsq k S (a : A) (Q : A -> (node T -> Prop) -> Prop) :
    world nsq k S -> Q a S -> grows nsq k S (ret a) Q.
  Proof.
    intros HW HQ a' k' E. unfold ret in E. inversion E; subst.
    split; [lia|]. exists S; auto using incl_refl.
  Qed.

  Lemma grows_bind {A B} nsq k S (m : M A) (f : A -> M B) Q R :
    grows nsq k S m Q ->
    (forall a k' S', k <= k' -> incl S S' -> world nsq k' S' -> Q a S' -> grows nsq k' S' (f a) R) ->
    grows nsq k S (bind m f) R.
  Proof.
    intros Hm Hf b k'' E. apply bind_ok in E as (a & k' & Em & Ef).
    destruct (Hm _ _ Em) as (Hk & S' & Hi & HW & HQ).
    destruct (Hf a k' S' Hk Hi HW HQ _ _ Ef) as (Hk' & S'' & Hi' & HW' & HR).
    split; [lia|]. exists S''; repeat split; auto; try apply HW'. eapply incl_trans; eauto.
  Qed.

  Lemma grows_fail {A} nsq k S p (Q : A -> (node T -> Prop) -> Prop) :
    grows nsq k S (fail p) Q.
  Proof. intros a k' E; discriminate. Qed.

  Lemma grows_lift {A} nsq k S (r : res A) (Q : A -> (node T -> Prop) -> Prop) :
    world nsq k S -> (forall a, r = Ok a -> Q a S) -> grows nsq k S (lift r) Q.
  Proof.
    intros HW HQ a k' E. apply lift_ok in E as [Er ->].
    split; [lia|]. exists S; auto using incl_refl.
  Qed.

  Lemma grows_weaken {A} nsq k S (m : M A) (Q R : A -> (node T -> Prop) -> Prop) :
    grows nsq k S m Q -> (forall a S', incl S S' -> Q a S' -> R a S') -> grows nsq k S m R.
  Proof.
    intros Hm HQR a k' E. destruct (Hm _ _ E) as (Hk & S' & Hi & HW & HQ).
    split; [exact Hk|]. exists S'; auto.
  Qed.

  (** Allocation of one node. *)
  Lemma grows_alloc nsq k S (n : node T) (m : M (node T)) :
    world nsq k S ->
    m k = Ok (n, Datatypes.S k) -> nid n = k ->
    (forall c, In c (arguments n) -> S c) -> shape nsq n ->
    grows nsq k S m (fun r S' => S' r /\ r = n).
  Proof.
    intros [Hc Hl Hh Hs] Em Hid Hargs Hshape a k' E.
    rewrite Em in E; inversion E; subst a k'. split; [lia|].
    exists (fun x => S x \/ x = n). split; [intros x Hx; left; exact Hx|].
    split; [|split; [right; reflexivity|reflexivity]].
    constructor.
    - intros x c [Hx | ->] Hin; left; [eapply Hc; eauto|auto].
    - intros x [Hx | ->]; [apply Hl in Hx; lia|lia].
    - intros x y [Hx | ->] [Hy | ->] Heq; auto.
      + apply Hl in Hx. lia.
      + apply Hl in Hy. lia.
    - intros x [Hx | ->]; auto.
  Qed.

  Variable nsq : bool.

  Lemma mk_const_grows k S v :
    world nsq k S ->
    grows nsq k S (mk_const v) (fun r S' => S' r /\ r = NConst k v).
  Proof.
    intros HW. apply grows_alloc; auto; try reflexivity. intros c [].
  Qed.

  Lemma mk_var_grows k S s kd :
    world nsq k S ->
    grows nsq k S (mk_var s kd) (fun r S' => S' r /\ r = NVar k s kd).
  Proof. intros HW. apply grows_alloc; auto; try reflexivity. intros c []. Qed.

  Lemma mk_add_grows k S args :
    world nsq k S -> Forall S args -> add_args_ok args = true ->
    grows nsq k S (mk_add args) (fun r S' => S' r /\ r = NAdd k args).
  Proof.
    intros HW Hargs Hok. unfold mk_add.
    destruct (Nat.ltb_spec (length args) 2) as [Hlt|Hge].
    - intros a k' E; discriminate.
    - apply grows_alloc; auto; try reflexivity.
      + cbn. apply Forall_forall; exact Hargs.
      + cbn. auto.
  Qed.

  Lemma mk_cos_grows k S a :
    world nsq k S -> S a -> is_constant a = false ->
    grows nsq k S (mk_cos a) (fun r S' => S' r /\ r = NCos k a).
  Proof.
    intros HW Ha Hc. apply grows_alloc; auto; try reflexivity.
    cbn. intros c [<-|[]]; exact Ha.
  Qed.

  Lemma mk_sin_grows k S a :
    world nsq k S -> S a -> is_constant a = false ->
    grows nsq k S (mk_sin a) (fun r S' => S' r /\ r = NSin k a).
  Proof.
    intros HW Ha Hc. apply grows_alloc; auto; try reflexivity.
    cbn. intros c [<-|[]]; exact Ha.
  Qed.

  Lemma mk_mul_grows k S a b :
    world nsq k S -> S a -> S b -> is_constant a && is_constant b = false ->
    grows nsq k S (mk_mul a b) (fun r S' => S' r /\ r = NMul k a b).
  Proof.
    intros HW Ha Hb Hc. apply grows_alloc; auto; try reflexivity.
    cbn. intros c [<-|[<-|[]]]; assumption.
  Qed.

  Lemma mk_div_grows k S a b :
    world nsq k S -> S a -> S b -> is_constant a && is_constant b = false ->
    is_constant_with_value b n0 = false -> (nsq = true -> nid a <> nid b) ->
    grows nsq k S (mk_div a b) (fun r S' => S' r /\ r = NDiv k a b).
  Proof.
    intros HW Ha Hb Hc Hz Hn. apply grows_alloc; auto; try reflexivity.
    - cbn. intros c [<-|[<-|[]]]; assumption.
    - cbn. auto.
  Qed.

  (** *** Addition *)
  Definition plain (n : node T) : bool := negb (is_add n) && negb (is_constant n).

  Lemma plain_list_ok l : forallb plain l = true -> l <> [] -> add_args_ok l = true.
  Proof.
    induction l as [|a l IH]; [congruence|].
    cbn [forallb]; intros Hp _. apply andb_true_iff in Hp as [Ha Hl].
    unfold plain in Ha; apply andb_true_iff in Ha as [Ha1 Ha2].
    destruct l as [|b l].
    - cbn; exact Ha1.
    - cbn [add_args_ok]. rewrite Ha1, Ha2. apply IH; [exact Hl|discriminate].
  Qed.

  Lemma plain_list_const l i v :
    forallb plain l = true -> add_args_ok (l ++ [NConst i v]) = true.
  Proof.
    induction l as [|a l IH]; [reflexivity|].
    cbn [forallb app]; intros Hp. apply andb_true_iff in Hp as [Ha Hl].
    unfold plain in Ha; apply andb_true_iff in Ha as [Ha1 Ha2].
    specialize (IH Hl).
    destruct (l ++ [NConst i v]) as [|b l'] eqn:E; [destruct l; discriminate|].
    cbn [add_args_ok]. rewrite Ha1, Ha2. exact IH.
  Qed.

  Lemma add_args_no_add l : add_args_ok l = true -> forallb (fun a => negb (is_add a)) l = true.
  Proof.
    induction l as [|a l IH]; [reflexivity|].
    destruct l as [|b l].
    - cbn. intros ->; reflexivity.
    - intros Hok. cbn [add_args_ok] in Hok. apply andb_true_iff in Hok as [Ha Hl].
      apply andb_true_iff in Ha as [Ha _]. cbn [forallb]. rewrite Ha. apply IH; exact Hl.
  Qed.

  Lemma add_inner_fold xs c args (P : node T -> Prop) :
    forallb (fun a => negb (is_add a)) xs = true ->
    Forall P xs -> Forall P args -> forallb plain args = true ->
    Forall P (snd (fold_left add_inner xs (c, args)))
    /\ forallb plain (snd (fold_left add_inner xs (c, args))) = true.
  Proof.
    revert c args; induction xs as [|x xs IH]; intros c args Hn HP Ha Hp.
    - cbn; auto.
    - cbn [forallb] in Hn; apply andb_true_iff in Hn as [Hx Hn].
      inversion HP as [|? ? HPx HPxs]; subst.
      cbn [fold_left]. unfold add_inner at 2 4.
      assert (Hgen : forall st, st = (c, args ++ [x]) -> is_constant x = false ->
        Forall P (snd (fold_left add_inner xs st))
        /\ forallb plain (snd (fold_left add_inner xs st)) = true).
      { intros st -> Hcx. apply IH; auto.
        - apply Forall_app; auto.
        - rewrite forallb_app, Hp. cbn. unfold plain. rewrite Hx, Hcx. reflexivity. }
      destruct x; try (apply Hgen; reflexivity).
      apply IH; auto.
  Qed.

  Lemma add_outer_fold l c args (P : node T -> Prop) :
    (forall a, In a l -> P a /\ (forall i xs, a = NAdd i xs -> Forall P xs /\ add_args_ok xs = true)) ->
    Forall P args -> forallb plain args = true ->
    Forall P (snd (fold_left add_outer l (c, args)))
    /\ forallb plain (snd (fold_left add_outer l (c, args))) = true.
  Proof.
    revert c args; induction l as [|a l IH]; intros c args Hl Ha Hp.
    - cbn; auto.
    - cbn [fold_left].
      assert (Hl' : forall a0, In a0 l -> P a0 /\ (forall i xs, a0 = NAdd i xs -> Forall P xs /\ add_args_ok xs = true))
        by (intros; apply Hl; right; assumption).
      destruct (Hl a (or_introl eq_refl)) as [Pa Hadd].
      unfold add_outer at 2 4.
      assert (Hgen : forall st, st = (c, args ++ [a]) -> plain a = true ->
        Forall P (snd (fold_left add_outer l st))
        /\ forallb plain (snd (fold_left add_outer l st)) = true).
      { intros st -> Hpa. apply IH; auto.
        - apply Forall_app; auto.
        - rewrite forallb_app, Hp. cbn. rewrite Hpa. reflexivity. }
      destruct a as [i v|i s kd|i xs|i x|i x y|i x y|i x]; try (apply Hgen; reflexivity).
      + apply IH; auto.
      + destruct (Hadd i xs eq_refl) as [HPx Hok].
        destruct (add_inner_fold xs c args P (add_args_no_add _ Hok) HPx Ha Hp) as [H1 H2].
        destruct (fold_left add_inner xs (c, args)) as [c' args'].
        apply IH; auto.
  Qed.

  Lemma world_add_args k S i xs :
    world nsq k S -> S (NAdd i xs) -> Forall S xs /\ add_args_ok xs = true /\ 2 <= length xs.
  Proof.
    intros HW Hn. split; [|split].
    - apply Forall_forall. intros x Hx. eapply w_closed; eauto.
    - apply (w_shape _ _ _ HW _ Hn).
    - apply (w_shape _ _ _ HW _ Hn).
  Qed.

  Lemma add_other_grows k S a b :
    world nsq k S -> S a -> S b -> grows nsq k S (add_other a b) here.
  Proof.
    intros HW Ha Hb. unfold add_other.
    destruct (fold_left add_outer [a; b] (n0, [])) as [c args] eqn:E.
    assert (Hargs : Forall S args /\ forallb plain args = true).
    { pose proof (add_outer_fold [a; b] n0 [] S) as HF. rewrite E in HF. apply HF.
      - intros x Hx. assert (Sx : S x) by (destruct Hx as [<-|[<-|[]]]; assumption).
        split; [exact Sx|]. intros i xs ->.
        destruct (world_add_args _ _ _ _ HW Sx) as (H1 & H2 & _). auto.
      - constructor.
      - reflexivity. }
    destruct Hargs as [HSa Hpl].
    destruct args as [|x args].
    - eapply grows_weaken; [apply mk_const_grows; exact HW|]. intros r S' _ [Hr _]; exact Hr.
    - destruct (negb (neqb c n0)).
      + eapply grows_bind; [apply mk_const_grows; exact HW|].
        intros cn k' S' Hk Hi HW' [Hcn ->]. cbn beta.
        eapply grows_weaken; [apply mk_add_grows; auto|].
        * apply Forall_app; split; [|auto]. eapply Forall_impl; [|exact HSa]. auto.
        * apply plain_list_const; exact Hpl.
        * intros r S'' _ [Hr _]; exact Hr.
      + eapply grows_weaken; [apply mk_add_grows; auto|].
        * apply plain_list_ok; [exact Hpl|discriminate].
        * intros r S'' _ [Hr _]; exact Hr.
  Qed.

  Lemma add_nn_grows k S a b :
    world nsq k S -> S a -> S b -> grows nsq k S (add_nn a b) here.
  Proof.
    intros HW Ha Hb. unfold add_nn.
    destruct (is_constant_with_value a n0); [apply grows_ret; auto|].
    destruct (is_constant_with_value b n0); [apply grows_ret; auto|].
    apply add_other_grows; auto.
  Qed.

  Lemma add_ns_grows k S a v :
    world nsq k S -> S a -> grows nsq k S (add_ns a v) here.
  Proof.
    intros HW Ha. unfold add_ns.
    destruct (neqb v n0); [apply grows_ret; auto|].
    eapply grows_bind; [apply mk_const_grows; exact HW|].
    intros c k' S' Hk Hi HW' [Hc _]. apply add_other_grows; auto.
  Qed.

  Lemma add_sn_grows k S v a :
    world nsq k S -> S a -> grows nsq k S (add_sn v a) here.
  Proof.
    intros HW Ha. unfold add_sn.
    destruct (neqb v n0); [apply grows_ret; auto|].
    eapply grows_bind; [apply mk_const_grows; exact HW|].
    intros c k' S' Hk Hi HW' [Hc _]. apply add_other_grows; auto.
  Qed.

  (** *** Distributing an operation over the arguments of a sum *)

  (** What a distributed operation does to one argument: never a sum, constant
      only if the argument is. *)
  Definition dist (x r : node T) : Prop :=
    is_add r = false /\ (is_constant x = false -> is_constant r = false).

  Lemma mapM_grows k S (f : node T -> M (node T)) l :
    world nsq k S -> Forall S l ->
    (forall x k' S', In x l -> world nsq k' S' -> incl S S' ->
       grows nsq k' S' (f x) (fun r S'' => S'' r /\ dist x r)) ->
    grows nsq k S (mapM f l) (fun rs S' => Forall S' rs /\ Forall2 dist l rs).
  Proof.
    revert k S; induction l as [|x l IH]; intros k S HW HS Hf.
    - apply grows_ret; auto.
    - inversion HS as [|? ? Sx Sl]; subst. cbn [mapM].
      eapply grows_bind; [apply Hf; auto using incl_refl; left; reflexivity|].
      intros b k1 S1 Hk1 Hi1 HW1 [Sb Db].
      eapply grows_bind.
      + apply IH; auto.
        * eapply Forall_impl; [|exact Sl]. auto.
        * intros y k' S' Hin HW' Hi'. apply Hf; auto; [right; exact Hin|].
          eapply incl_trans; eauto.
      + intros bs k2 S2 Hk2 Hi2 HW2 [Sbs Dbs]. apply grows_ret; auto.
  Qed.

  Lemma dist_args_ok l rs :
    Forall2 dist l rs -> add_args_ok l = true -> add_args_ok rs = true.
  Proof.
    induction 1 as [|x r l rs [D1 D2] HF IH]; [auto|].
    destruct HF as [|y r' l rs Dy HF].
    - cbn. rewrite D1. auto.
    - intros Hok. cbn [add_args_ok] in Hok. apply andb_true_iff in Hok as [Hx Hl].
      apply andb_true_iff in Hx as [_ Hx]. apply negb_true_iff in Hx.
      specialize (IH Hl). cbn [add_args_ok]. rewrite D1, (D2 Hx). exact IH.
  Qed.

  (** After distributing, the results form a sum. *)
  Lemma dist_sum_grows k S (f : node T -> M (node T)) l :
    world nsq k S -> Forall S l -> add_args_ok l = true ->
    (forall x k' S', In x l -> world nsq k' S' -> incl S S' ->
       grows nsq k' S' (f x) (fun r S'' => S'' r /\ dist x r)) ->
    grows nsq k S (bind (mapM f l) (fun r => mk_add r)) (fun r S' => S' r /\ is_add r = true).
  Proof.
    intros HW HS Hok Hf.
    eapply grows_bind; [apply mapM_grows; eauto|].
    intros rs k1 S1 Hk Hi HW1 [Srs Drs].
    eapply grows_weaken; [apply mk_add_grows; auto; eapply dist_args_ok; eauto|].
    intros r S' _ [Hr ->]; auto.
  Qed.

  Lemma forall_not_add l x : add_args_ok l = true -> In x l -> is_add x = false.
  Proof.
    intros Hok Hin. apply add_args_no_add in Hok. rewrite forallb_forall in Hok.
    specialize (Hok _ Hin). apply negb_true_iff in Hok. exact Hok.
  Qed.

  (** *** Multiplication *)

  (** On an argument that is not a sum. *)
  Lemma mul_cn_plain k S s r :
    world nsq k S -> S s -> S r -> is_constant s = true -> is_add r = false ->
    is_constant_with_value s n0 = false ->
    grows nsq k S (mul_cn s r) (fun x S' => S' x /\ dist r x).
  Proof.
    intros HW Ss Sr Hs Hr Hs0.
    assert (E : mul_cn s r =
      if is_constant_with_value s n0 || is_constant_with_value r n0 then mk_const n0
      else if is_constant_with_value s n1 then ret r
      else if is_constant_with_value r n1 then ret s
      else if is_constant s && is_constant r then mk_const (nmul (evaluate [] s) (evaluate [] r))
      else mk_mul s r) by (destruct r; try discriminate; reflexivity).
    rewrite E; clear E. rewrite Hs0; cbn [orb].
    destruct (is_constant_with_value r n0) eqn:Hr0.
    { eapply grows_weaken; [apply mk_const_grows; auto|].
      intros x S' _ [Hx ->]; split; [exact Hx|]. split; [reflexivity|].
      destruct r; discriminate. }
    destruct (is_constant_with_value s n1).
    { apply grows_ret; auto. split; [exact Sr|]. split; auto. }
    destruct (is_constant_with_value r n1) eqn:Hr1.
    { apply grows_ret; auto. split; [exact Ss|]. split; [destruct s; auto; discriminate|].
      destruct r; discriminate. }
    rewrite Hs; cbn [andb]. destruct (is_constant r) eqn:Hrc.
    { eapply grows_weaken; [apply mk_const_grows; auto|].
      intros x S' _ [Hx ->]; split; [exact Hx|]. split; [reflexivity|congruence]. }
    eapply grows_weaken; [apply mk_mul_grows; auto; rewrite Hrc; apply andb_false_r|].
    intros x S' _ [Hx ->]; split; [exact Hx|]. split; reflexivity.
  Qed.

  Lemma mul_nc_plain k S s r :
    world nsq k S -> S s -> S r -> is_constant r = true -> is_add s = false ->
    is_constant_with_value r n0 = false ->
    grows nsq k S (mul_nc s r) (fun x S' => S' x /\ dist s x).
  Proof.
    intros HW Ss Sr Hr Hs Hr0.
    assert (E : mul_nc s r =
      if is_constant_with_value s n0 || is_constant_with_value r n0 then mk_const n0
      else if is_constant_with_value s n1 then ret r
      else if is_constant_with_value r n1 then ret s
      else if is_constant s && is_constant r then mk_const (nmul (evaluate [] s) (evaluate [] r))
      else mk_mul s r) by (destruct s; try discriminate; reflexivity).
    rewrite E; clear E. rewrite Hr0, orb_false_r.
    destruct (is_constant_with_value s n0) eqn:Hs0.
    { eapply grows_weaken; [apply mk_const_grows; auto|].
      intros x S' _ [Hx ->]; split; [exact Hx|]. split; [reflexivity|].
      destruct s; discriminate. }
    destruct (is_constant_with_value s n1) eqn:Hs1.
    { apply grows_ret; auto. split; [exact Sr|]. split; [destruct r; auto; discriminate|].
      destruct s; discriminate. }
    destruct (is_constant_with_value r n1) eqn:Hr1.
    { apply grows_ret; auto. split; [exact Ss|]. split; auto. }
    rewrite Hr, andb_true_r. destruct (is_constant s) eqn:Hsc.
    { eapply grows_weaken; [apply mk_const_grows; auto|].
      intros x S' _ [Hx ->]; split; [exact Hx|]. split; [reflexivity|congruence]. }
    eapply grows_weaken; [apply mk_mul_grows; auto; rewrite Hsc; reflexivity|].
    intros x S' _ [Hx ->]; split; [exact Hx|]. split; reflexivity.
  Qed.

  Lemma mul_nn_grows k S a b :
    world nsq k S -> S a -> S b -> grows nsq k S (mul_nn a b) here.
  Proof.
    intros HW Ha Hb. unfold mul_nn.
    destruct (is_constant_with_value a n0 || is_constant_with_value b n0) eqn:H0.
    { eapply grows_weaken; [apply mk_const_grows; auto|]. intros r S' _ [Hr _]; exact Hr. }
    apply orb_false_iff in H0 as [Ha0 Hb0].
    destruct (is_constant_with_value a n1); [apply grows_ret; auto|].
    destruct (is_constant_with_value b n1); [apply grows_ret; auto|].
    destruct (is_constant a && is_constant b) eqn:Hc.
    { eapply grows_weaken; [apply mk_const_grows; auto|]. intros r S' _ [Hr _]; exact Hr. }
    assert (Hgen : grows nsq k S (mk_mul a b) here).
    { eapply grows_weaken; [apply mk_mul_grows; auto|]. intros r S' _ [Hr _]; exact Hr. }
    destruct a as [i v|i s kd|i xs|i x|i x y|i x y|i x]; try exact Hgen.
    - destruct b as [j w|j s kd|j xs|j x|j x y|j x y|j x]; try exact Hgen.
      destruct (world_add_args _ _ _ _ HW Hb) as (Sxs & Hok & _).
      eapply grows_weaken; [apply dist_sum_grows; eauto|].
      + intros x k' S' Hin HW' Hi. apply mul_cn_plain; auto.
        * apply Hi. rewrite Forall_forall in Sxs; auto.
        * eapply forall_not_add; eauto.
      + intros r S' _ [Hr _]; exact Hr.
    - destruct b as [j w|j s kd|j ys|j x|j x y|j x y|j x]; try exact Hgen.
      destruct (world_add_args _ _ _ _ HW Ha) as (Sxs & Hok & _).
      eapply grows_weaken; [apply dist_sum_grows; eauto|].
      + intros x k' S' Hin HW' Hi. apply mul_nc_plain; auto.
        * apply Hi. rewrite Forall_forall in Sxs; auto.
        * eapply forall_not_add; eauto.
      + intros r S' _ [Hr _]; exact Hr.
  Qed.

  (** [mul_ns]/[mul_sn] on an argument that is not a sum, scalar neither zero nor one. *)
  Lemma mul_ns_plain k S s v :
    world nsq k S -> S s -> is_add s = false -> neqb v n0 = false ->
    grows nsq k S (mul_ns s v) (fun x S' => S' x /\ dist s x /\ (nid x <> nid s \/ x = s)).
  Proof.
    intros HW Ss Hs Hv.
    assert (E : mul_ns s v =
      if is_constant s || neqb v n0 then
        match s with NConst _ x => mk_const (nmul x v) | _ => mk_const n0 end
      else if is_constant_with_value s n1 then mk_const v
      else if neqb v n1 then ret s
      else bind (mk_const v) (fun c => mk_mul s c)) by (destruct s; try discriminate; reflexivity).
    rewrite E; clear E. rewrite Hv, orb_false_r.
    pose proof (w_lt _ _ _ HW _ Ss) as Hlt.
    destruct (is_constant s) eqn:Hsc.
    { destruct s; try discriminate.
      eapply grows_weaken; [apply mk_const_grows; auto|].
      intros x S' _ [Hx ->]; split; [exact Hx|]. split; [split; [reflexivity|discriminate]|].
      left; cbn in *; lia. }
    replace (is_constant_with_value s n1) with false by (destruct s; try reflexivity; discriminate).
    destruct (neqb v n1).
    { apply grows_ret; auto. split; [exact Ss|]. split; [split; auto|auto]. }
    eapply grows_bind; [apply mk_const_grows; auto|].
    intros c k' S' Hk Hi HW' [Sc ->].
    eapply grows_weaken; [apply mk_mul_grows; auto; rewrite Hsc; reflexivity|].
    intros x S'' _ [Hx ->]; split; [exact Hx|]. split; [split; reflexivity|left; cbn; lia].
  Qed.

  Lemma mul_sn_plain k S v r :
    world nsq k S -> S r -> is_add r = false -> neqb v n0 = false ->
    grows nsq k S (mul_sn v r) (fun x S' => S' x /\ dist r x /\ (nid x <> nid r \/ x = r)).
  Proof.
    intros HW Sr Hr Hv.
    assert (E : mul_sn v r =
      if neqb v n0 || is_constant r then
        match r with NConst _ x => mk_const (nmul v x) | _ => mk_const n0 end
      else if neqb v n1 then ret r
      else if is_constant_with_value r n1 then mk_const v
      else bind (mk_const v) (fun c => mk_mul c r)) by (destruct r; try discriminate; reflexivity).
    rewrite E; clear E. rewrite Hv; cbn [orb].
    pose proof (w_lt _ _ _ HW _ Sr) as Hlt.
    destruct (is_constant r) eqn:Hrc.
    { destruct r; try discriminate.
      eapply grows_weaken; [apply mk_const_grows; auto|].
      intros x S' _ [Hx ->]; split; [exact Hx|]. split; [split; [reflexivity|discriminate]|].
      left; cbn in *; lia. }
    destruct (neqb v n1).
    { apply grows_ret; auto. split; [exact Sr|]. split; [split; auto|auto]. }
    replace (is_constant_with_value r n1) with false by (destruct r; try reflexivity; discriminate).
    eapply grows_bind; [apply mk_const_grows; auto|].
    intros c k' S' Hk Hi HW' [Sc ->].
    eapply grows_weaken; [apply mk_mul_grows; auto; rewrite Hrc; apply andb_false_r|].
    intros x S'' _ [Hx ->]; split; [exact Hx|]. split; [split; reflexivity|left; cbn; lia].
  Qed.

  Lemma mul_ns_grows k S s v :
    world nsq k S -> S s -> grows nsq k S (mul_ns s v) here.
  Proof.
    intros HW Ss.
    destruct (neqb v n0) eqn:Hv0.
    { assert (E : mul_ns s v = match s with NConst _ x => mk_const (nmul x v) | _ => mk_const n0 end)
        by (destruct s; cbn; rewrite ?Hv0; reflexivity).
      rewrite E. destruct s;
        (eapply grows_weaken; [apply mk_const_grows; auto|]; intros r S' _ [Hr _]; exact Hr). }
    destruct (is_add s) eqn:Hadd.
    - destruct s as [| |i xs| | | |]; try discriminate.
      destruct (world_add_args _ _ _ _ HW Ss) as (Sxs & Hok & _).
      cbn [mul_ns is_constant orb is_constant_with_value]. rewrite Hv0.
      destruct (neqb v n1); [apply grows_ret; auto|].
      eapply grows_weaken; [apply dist_sum_grows; eauto|].
      + intros x k' S' Hin HW' Hi.
        eapply grows_weaken; [apply mul_ns_plain; auto|].
        * apply Hi. rewrite Forall_forall in Sxs; auto.
        * eapply forall_not_add; eauto.
        * intros r S'' _ (Hr & Hd & _); auto.
      + intros r S' _ [Hr _]; exact Hr.
    - eapply grows_weaken; [apply mul_ns_plain; auto|]. intros r S' _ [Hr _]; exact Hr.
  Qed.

  Lemma mul_sn_grows k S v r :
    world nsq k S -> S r -> grows nsq k S (mul_sn v r) here.
  Proof.
    intros HW Sr.
    destruct (neqb v n0) eqn:Hv0.
    { assert (E : mul_sn v r = match r with NConst _ x => mk_const (nmul v x) | _ => mk_const n0 end)
        by (destruct r; cbn; rewrite ?Hv0; reflexivity).
      rewrite E. destruct r;
        (eapply grows_weaken; [apply mk_const_grows; auto|]; intros r' S' _ [Hr _]; exact Hr). }
    destruct (is_add r) eqn:Hadd.
    - destruct r as [| |i xs| | | |]; try discriminate.
      destruct (world_add_args _ _ _ _ HW Sr) as (Sxs & Hok & _).
      cbn [mul_sn is_constant orb is_constant_with_value]. rewrite Hv0; cbn [orb].
      destruct (neqb v n1); [apply grows_ret; auto|].
      eapply grows_weaken; [apply dist_sum_grows; eauto|].
      + intros x k' S' Hin HW' Hi.
        eapply grows_weaken; [apply mul_sn_plain; auto|].
        * apply Hi. rewrite Forall_forall in Sxs; auto.
        * eapply forall_not_add; eauto.
        * intros r S'' _ (Hr & Hd & _); auto.
      + intros r S' _ [Hr _]; exact Hr.
    - eapply grows_weaken; [apply mul_sn_plain; auto|]. intros r' S' _ [Hr _]; exact Hr.
  Qed.

  (** *** Negation, subtraction, division, functions *)
  Lemma neg_n_grows k S n :
    world nsq k S -> S n -> grows nsq k S (neg_n n) here.
  Proof.
    intros HW Sn. unfold neg_n. destruct n; try (apply mul_sn_grows; auto).
    eapply grows_weaken; [apply mk_const_grows; auto|]. intros r S' _ [Hr _]; exact Hr.
  Qed.

  Lemma sub_nn_grows k S a b :
    world nsq k S -> S a -> S b -> grows nsq k S (sub_nn a b) here.
  Proof.
    intros HW Sa Sb. unfold sub_nn. eapply grows_bind; [apply mul_sn_grows; eauto|].
    intros m k' S' Hk Hi HW' Sm. apply add_nn_grows; auto.
  Qed.

  Lemma sub_ns_grows k S a v :
    world nsq k S -> S a -> grows nsq k S (sub_ns a v) here.
  Proof.
    intros HW Sa. unfold sub_ns. eapply grows_bind; [apply mk_const_grows; eauto|].
    intros c k' S' Hk Hi HW' [Sc _]. eapply grows_bind; [apply mul_sn_grows; eauto|].
    intros m k2 S2 Hk2 Hi2 HW2 Sm. apply add_nn_grows; auto.
  Qed.

  Lemma sub_sn_grows k S v b :
    world nsq k S -> S b -> grows nsq k S (sub_sn v b) here.
  Proof.
    intros HW Sb. unfold sub_sn. eapply grows_bind; [apply mk_const_grows; eauto|].
    intros c k' S' Hk Hi HW' [Sc _]. eapply grows_bind; [apply mul_sn_grows; eauto|].
    intros m k2 S2 Hk2 Hi2 HW2 Sm. apply add_nn_grows; auto.
  Qed.

  Lemma div_nn_grows k S a b :
    world nsq k S -> S a -> S b -> (nsq = true -> nid a <> nid b) ->
    grows nsq k S (div_nn a b) here.
  Proof.
    intros HW Sa Sb Hn. unfold div_nn.
    destruct (is_constant_with_value b n0) eqn:Hb0; [apply grows_fail|].
    destruct (is_constant_with_value b n1); [apply grows_ret; auto|].
    destruct (is_constant_with_value a n0).
    { eapply grows_weaken; [apply mk_const_grows; auto|]. intros r S' _ [Hr _]; exact Hr. }
    destruct (is_constant a && is_constant b) eqn:Hc.
    { eapply grows_weaken; [apply mk_const_grows; auto|]. intros r S' _ [Hr _]; exact Hr. }
    eapply grows_weaken; [apply mk_div_grows; auto|]. intros r S' _ [Hr _]; exact Hr.
  Qed.

  Lemma div_ns_grows k S a v :
    world nsq k S -> S a -> grows nsq k S (div_ns a v) here.
  Proof.
    intros HW Sa. unfold div_ns.
    destruct (neqb v n0) eqn:Hv0; [apply grows_fail|].
    destruct (neqb v n1); [apply grows_ret; auto|].
    destruct (is_constant_with_value a n0).
    { eapply grows_weaken; [apply mk_const_grows; auto|]. intros r S' _ [Hr _]; exact Hr. }
    destruct (is_constant a) eqn:Hc.
    { eapply grows_weaken; [apply mk_const_grows; auto|]. intros r S' _ [Hr _]; exact Hr. }
    eapply grows_bind; [apply mk_const_grows; auto|].
    intros c k' S' Hk Hi HW' [Sc ->].
    eapply grows_weaken; [apply mk_div_grows; auto|intros r S'' _ [Hr _]; exact Hr].
    - rewrite Hc; reflexivity.
    - intros _. pose proof (w_lt _ _ _ HW _ Sa). cbn; lia.
  Qed.

  Lemma div_sn_grows k S v b :
    world nsq k S -> S b -> grows nsq k S (div_sn v b) here.
  Proof.
    intros HW Sb. unfold div_sn.
    destruct (is_constant_with_value b n0) eqn:Hb0; [apply grows_fail|].
    destruct (is_constant_with_value b n1).
    { eapply grows_weaken; [apply mk_const_grows; auto|]. intros r S' _ [Hr _]; exact Hr. }
    destruct (neqb v n0).
    { eapply grows_weaken; [apply mk_const_grows; auto|]. intros r S' _ [Hr _]; exact Hr. }
    destruct (is_constant b) eqn:Hc.
    { eapply grows_weaken; [apply mk_const_grows; auto|]. intros r S' _ [Hr _]; exact Hr. }
    eapply grows_bind; [apply mk_const_grows; auto|].
    intros c k' S' Hk Hi HW' [Sc ->].
    eapply grows_weaken; [apply mk_div_grows; auto|intros r S'' _ [Hr _]; exact Hr].
    intros _. pose proof (w_lt _ _ _ HW _ Sb). cbn; lia.
  Qed.

  Lemma cos_n_grows k S n : world nsq k S -> S n -> grows nsq k S (cos_n n) here.
  Proof.
    intros HW Sn. unfold cos_n. destruct n;
    (eapply grows_weaken; [first [apply mk_const_grows; exact HW | apply mk_cos_grows; [exact HW|exact Sn|reflexivity]]|];
     intros r S' _ [Hr _]; exact Hr).
  Qed.
  Lemma sin_n_grows k S n : world nsq k S -> S n -> grows nsq k S (sin_n n) here.
  Proof.
    intros HW Sn. unfold sin_n. destruct n;
    (eapply grows_weaken; [first [apply mk_const_grows; exact HW | apply mk_sin_grows; [exact HW|exact Sn|reflexivity]]|];
     intros r S' _ [Hr _]; exact Hr).
  Qed.
End Shape.
