(** Standard properties of an expression: variables, affine form. *)
From Verif Require Import Base Num Node NodeDiff NodeInd NodeStd World MapProofs EvalProofs.
From Coq Require Import Reals Lra.


Section Keys.
  Context {T : Type} `{Num T}.
  Notation keys n := (map fst (p_a (std_properties n))).
  Notation nodupv := (nodupk (@ptr_eq T)).
  Notation has v l := (existsb (ptr_eq v) l).

  Lemma merge_add_keys (a : list (node T * T)) kv :
    map fst (merge_add a kv) =
    if has (fst kv) (map fst a) then map fst a else map fst a ++ [fst kv].
  Proof. unfold merge_add. destruct (hget _ _ _); apply keys_hinsert; auto. Qed.

  (** A fold that inserts the keys of [l]. *)
  Definition inserts (f : list (node T * T) -> node T * T -> list (node T * T)) : Prop :=
    forall a kv, map fst (f a kv) =
      if has (fst kv) (map fst a) then map fst a else map fst a ++ [fst kv].

  Lemma inserts_fold f l a :
    inserts f -> map fst (fold_left f l a) = sextend ptr_eq (map fst a) (map fst l).
  Proof.
    intros Hf. unfold sextend. revert a; induction l as [|kv l IH]; intros a; cbn; auto.
    rewrite IH, Hf. unfold sadd, smem. auto.
  Qed.

  Lemma inserts_merge : inserts merge_add.
  Proof. intros a kv; apply merge_add_keys. Qed.
  Lemma inserts_hinsert (g : node T * T -> T) :
    inserts (fun a kv => hinsert ptr_eq (fst kv) (g kv) a).
  Proof. intros a kv. apply keys_hinsert; auto. Qed.

  Lemma keys_add i args :
    keys (NAdd i args) = fold_left (fun s x => sextend ptr_eq s (keys x)) args [].
  Proof.
    cbn [std_properties].
    enough (G : forall acc, map fst (p_a (fold_left (fun acc x =>
                   let p := std_properties x in
                   mk_std_prop (p_affine acc && p_affine p)
                               (fold_left merge_add (p_a p) (p_a acc))
                               (nadd (p_b acc) (p_b p))) args acc)) =
              fold_left (fun s x => sextend ptr_eq s (keys x)) args (map fst (p_a acc)))
      by (apply (G (mk_std_prop true [] n0))).
    induction args as [|x args IH]; intros acc; cbn [fold_left]; auto.
    rewrite IH. cbn [p_a]. rewrite (inserts_fold merge_add); auto using inserts_merge.
  Qed.

  Lemma keys_div i x y :
    keys (NDiv i x y) = sextend ptr_eq (sextend ptr_eq [] (keys x)) (keys y).
  Proof.
    cbn [std_properties p_a].
    rewrite (inserts_fold _ _ _ (inserts_hinsert (fun _ => n0))).
    rewrite (inserts_fold _ _ _ (inserts_hinsert (fun kv => ndiv (snd kv) _))). reflexivity.
  Qed.
  Lemma keys_mul i x y :
    keys (NMul i x y) = sextend ptr_eq (sextend ptr_eq [] (keys x)) (keys y).
  Proof.
    cbn [std_properties p_a].
    rewrite (inserts_fold _ _ _ (inserts_hinsert (fun kv => nmul (snd kv) _))).
    rewrite (inserts_fold _ _ _ (inserts_hinsert (fun kv => nmul (snd kv) _))). reflexivity.
  Qed.

  Lemma keys_nodup n : nodupv (keys n).
  Proof.
    induction n as [i v|i st kd|i args IH|i a IHa|i a b IHa IHb|i a b IHa IHb|i a IHa] using node_ind'.
    - exact I.
    - cbn; auto.
    - rewrite keys_add. assert (G : nodupv ([] : list (node T))) by exact I.
      revert G. generalize ([] : list (node T)) as s.
      clear IH. induction args as [|x args IH]; intros s Hs; cbn [fold_left]; auto.
      apply IH. apply sextend_nodupk; auto.
    - exact IHa.
    - rewrite keys_div. apply sextend_nodupk; auto. apply sextend_nodupk; auto. exact I.
    - rewrite keys_mul. apply sextend_nodupk; auto. apply sextend_nodupk; auto. exact I.
    - exact IHa.
  Qed.

  (** Every key is a variable of the expression. *)
  Lemma keys_occur n v : In v (keys n) -> occurs v n.
  Proof.
    revert v; induction n as [i w|i st kd|i args IH|i a IHa|i a b IHa IHb|i a b IHa IHb|i a IHa] using node_ind'; intros v.
    - intros [].
    - intros [<-|[]]. split; [reflexivity|constructor].
    - rewrite keys_add. rewrite Forall_forall in IH.
      enough (G : forall s, In v (fold_left (fun s x => sextend ptr_eq s (keys x)) args s) ->
                In v s \/ exists x, In x args /\ In v (keys x)).
      { intros Hv. destruct (G [] Hv) as [[]|(x & Hx & Hv')].
        destruct (IH x Hx v Hv') as [Hvar Hsub]. split; auto. eapply sub_arg; eauto. }
      clear IH. induction args as [|x args IH]; intros s; cbn [fold_left]; auto.
      intros Hv. destruct (IH _ Hv) as [H1|(y & Hy & Hv')].
      + apply sextend_incl in H1 as [H1|H1]; auto. right; exists x; cbn; auto.
      + right; exists y; cbn; auto.
    - intros Hv. destruct (IHa v Hv) as [H1 H2]. split; auto. eapply sub_arg; [|exact H2]. cbn; auto.
    - rewrite keys_div. intros Hv.
      apply sextend_incl in Hv as [Hv|Hv]; [apply sextend_incl in Hv as [[]|Hv]|].
      + destruct (IHa v Hv) as [H1 H2]. split; auto. eapply sub_arg; [|exact H2]. cbn; auto.
      + destruct (IHb v Hv) as [H1 H2]. split; auto. eapply sub_arg; [|exact H2]. cbn; auto.
    - rewrite keys_mul. intros Hv.
      apply sextend_incl in Hv as [Hv|Hv]; [apply sextend_incl in Hv as [[]|Hv]|].
      + destruct (IHa v Hv) as [H1 H2]. split; auto. eapply sub_arg; [|exact H2]. cbn; auto.
      + destruct (IHb v Hv) as [H1 H2]. split; auto. eapply sub_arg; [|exact H2]. cbn; auto.
    - intros Hv. destruct (IHa v Hv) as [H1 H2]. split; auto. eapply sub_arg; [|exact H2]. cbn; auto.
  Qed.

  (** Every variable of the expression is a key. *)
  Lemma has_args n c v :
    In c (arguments n) -> has v (keys c) = true -> has v (keys n) = true.
  Proof.
    intros Hc Hv.
    destruct n as [i w|i st kd|i args|i a|i a b|i a b|i a]; cbn [arguments] in Hc.
    - destruct Hc.
    - destruct Hc.
    - rewrite keys_add.
      enough (G : forall s, has v s = true \/ In c args ->
                 has v (fold_left (fun s x => sextend ptr_eq s (keys x)) args s) = true) by (apply G; auto).
      clear Hc. induction args as [|x args IH]; intros s; cbn [fold_left].
      + intros [Hs|[]]; auto.
      + intros Hs. apply IH.
        change (smem ptr_eq v (sextend ptr_eq s (keys x)) = true \/ In c args).
        rewrite smem_sextend; eauto. unfold smem.
        destruct Hs as [Hs|[->|Hs]]; auto; left; apply orb_true_iff; auto.
    - destruct Hc as [<-|[]]; exact Hv.
    - rewrite keys_div. change (smem ptr_eq v (sextend ptr_eq (sextend ptr_eq [] (keys a)) (keys b)) = true).
      rewrite !smem_sextend; eauto. unfold smem. destruct Hc as [<-|[<-|[]]]; rewrite Hv; cbn;
      rewrite ?orb_true_r; auto.
    - rewrite keys_mul. change (smem ptr_eq v (sextend ptr_eq (sextend ptr_eq [] (keys a)) (keys b)) = true).
      rewrite !smem_sextend; eauto. unfold smem. destruct Hc as [<-|[<-|[]]]; rewrite Hv; cbn;
      rewrite ?orb_true_r; auto.
    - destruct Hc as [<-|[]]; exact Hv.
  Qed.

  Lemma occurs_has n v : occurs v n -> has v (keys n) = true.
  Proof.
    intros [Hv Hs]. induction Hs as [n|v c n Hc Hs IH].
    - destruct n; try discriminate. cbn. rewrite Nat.eqb_refl; auto.
    - eapply has_args; eauto.
  Qed.

  Lemma world_sub nsq k S (n s : node T) : world nsq k S -> S n -> sub s n -> S s.
  Proof.
    intros HW Hn Hs; revert Hn; induction Hs as [n|s c n Hc Hs IH]; intros Hn; auto.
    apply IH. eapply w_closed; eauto.
  Qed.

  Lemma world_ptr_eq nsq k S (a b : node T) :
    world nsq k S -> S a -> S b -> ptr_eq a b = true -> a = b.
  Proof. intros HW Ha Hb E. eapply w_coh; eauto. apply ptr_eq_nid; auto. Qed.

  Theorem keys_are_vars nsq k S (n : node T) :
    world nsq k S -> S n ->
    NoDup (keys n) /\ forall v, In v (keys n) <-> occurs v n.
  Proof.
    intros HW Hn. split; [apply (nodupk_NoDup ptr_eq); auto using keys_nodup|].
    intros v; split; [apply keys_occur|].
    intros Hv. pose proof (occurs_has _ _ Hv) as Hh.
    apply existsb_exists in Hh as (w & Hw & E).
    destruct Hv as [_ Hv]. destruct (keys_occur _ _ Hw) as [_ Hws].
    rewrite (world_ptr_eq nsq k S v w HW); auto;
      eapply (world_sub nsq k S n); eauto.
  Qed.

  (** *** Canonical expressions without variables are constants. *)
  Lemma canonical_has_var nsq k S n :
    world nsq k S -> S n -> is_constant n = false -> exists v, occurs v n.
  Proof.
    intros HW. induction n as [i w|i st kd|i args IH|i a IHa|i a b IHa IHb|i a b IHa IHb|i a IHa] using node_ind';
      intros Hn Hc.
    - discriminate.
    - exists (NVar i st kd). split; [reflexivity|constructor].
    - destruct (world_add_args nsq k S i args HW Hn) as (HS & Hok & Hlen).
      destruct args as [|a [|b args]]; cbn in Hlen; try lia.
      cbn [add_args_ok] in Hok. apply andb_true_iff in Hok as [Hok _].
      apply andb_true_iff in Hok as [_ Hac]. apply negb_true_iff in Hac.
      inversion IH as [|? ? Ha _]; subst. inversion HS; subst.
      destruct Ha as (v & Hv & Hs); auto. exists v; split; auto. eapply sub_arg; [|exact Hs]. cbn; auto.
    - pose proof (w_shape _ _ _ HW _ Hn) as Hsh. cbn in Hsh.
      destruct IHa as (v & Hv & Hs); auto. { eapply w_closed; eauto; cbn; auto. }
      exists v; split; auto. eapply sub_arg; [|exact Hs]. cbn; auto.
    - pose proof (w_shape _ _ _ HW _ Hn) as Hsh. cbn in Hsh. destruct Hsh as [Hsh _].
      destruct (is_constant a) eqn:Ea.
      + destruct IHb as (v & Hv & Hs); auto. { eapply w_closed; eauto; cbn; auto. }
        exists v; split; auto. eapply sub_arg; [|exact Hs]. cbn; auto.
      + destruct IHa as (v & Hv & Hs); auto. { eapply w_closed; eauto; cbn; auto. }
        exists v; split; auto. eapply sub_arg; [|exact Hs]. cbn; auto.
    - pose proof (w_shape _ _ _ HW _ Hn) as Hsh. cbn in Hsh.
      destruct (is_constant a) eqn:Ea.
      + destruct IHb as (v & Hv & Hs); auto. { eapply w_closed; eauto; cbn; auto. }
        exists v; split; auto. eapply sub_arg; [|exact Hs]. cbn; auto.
      + destruct IHa as (v & Hv & Hs); auto. { eapply w_closed; eauto; cbn; auto. }
        exists v; split; auto. eapply sub_arg; [|exact Hs]. cbn; auto.
    - pose proof (w_shape _ _ _ HW _ Hn) as Hsh. cbn in Hsh.
      destruct IHa as (v & Hv & Hs); auto. { eapply w_closed; eauto; cbn; auto. }
      exists v; split; auto. eapply sub_arg; [|exact Hs]. cbn; auto.
  Qed.

  Lemma no_keys_const nsq k S n :
    world nsq k S -> S n -> (length (p_a (std_properties n)) =? 0) = true ->
    exists i c, n = NConst i c.
  Proof.
    intros HW Hn Hl. destruct (is_constant n) eqn:Ec.
    - destruct n; try discriminate; eauto.
    - destruct (canonical_has_var _ _ _ _ HW Hn Ec) as (v & Hv).
      apply occurs_has in Hv. destruct (p_a (std_properties n)); discriminate.
  Qed.
End Keys.

(** *** The affine form, in exact arithmetic. *)
Local Open Scope R_scope.


Lemma evaluate_var_ptr_eq vs (v w : nodeX) :
  is_var v = true -> ptr_eq v w = true -> evaluate vs v = evaluate vs w.
Proof.
  intros Hv E. destruct v as [| i s kd | | | | |]; try discriminate.
  destruct w as [| j s' kd' | | | | |]; try discriminate.
  cbn [evaluate]. rewrite (hget_eqb ptr_eq ptr_eq_sym ptr_eq_trans _ _ vs E); auto.
Qed.

Lemma lin_cons vs kv a : lin vs (kv :: a) = x2 Rplus (x2 Rmult (snd kv) (evaluate vs (fst kv))) (lin vs a).
Proof. unfold lin; cbn [map]. apply xsum_cons. Qed.
Lemma lin_app vs a b : lin vs (a ++ b) = x2 Rplus (lin vs a) (lin vs b).
Proof. unfold lin; rewrite map_app. apply xsum_app. Qed.

Lemma xmul_add a b c : x2 Rmult (x2 Rplus a b) c = x2 Rplus (x2 Rmult a c) (x2 Rmult b c).
Proof. destruct a, b, c; cbn; try reflexivity. f_equal; lra. Qed.

Ltac xring := repeat match goal with |- context [evaluate ?vs ?n] => destruct (evaluate vs n) end;
              repeat match goal with a : X |- _ => destruct a end; cbn; try reflexivity; f_equal; lra.

Lemma lin_merge vs a kv :
  is_var (fst kv) = true ->
  lin vs (merge_add a kv) = x2 Rplus (lin vs a) (x2 Rmult (snd kv) (evaluate vs (fst kv))).
Proof.
  intros Hv. unfold merge_add. destruct kv as [v c]; cbn [fst snd] in *.
  induction a as [|[w d] a IH]; cbn [hget hinsert].
  - cbn [hinsert]. rewrite lin_cons. cbn [fst snd]. change (lin vs []) with (Some 0).
    rewrite xplus_0_r, xplus_0_l. reflexivity.
  - destruct (ptr_eq v w) eqn:E.
    + rewrite !lin_cons. cbn [fst snd]. rewrite <- (evaluate_var_ptr_eq vs v w Hv E).
      cbn [nadd NumX]. rewrite xmul_add, !xplus_assoc. f_equal. apply xplus_comm.
    + destruct (hget ptr_eq v a) eqn:G; rewrite !lin_cons, IH, xplus_assoc; reflexivity.
Qed.

Lemma lin_merge_fold vs l a :
  Forall (fun kv => is_var (fst kv) = true) l ->
  lin vs (fold_left merge_add l a) = x2 Rplus (lin vs a) (lin vs l).
Proof.
  intros Hl; revert a; induction Hl as [|kv l Hv Hl IH]; intros a; cbn [fold_left].
  - change (lin vs []) with (Some 0). rewrite xplus_0_r; reflexivity.
  - rewrite IH, lin_merge, lin_cons, xplus_assoc; auto.
Qed.

Lemma keys_var (n : nodeX) : Forall (fun kv => is_var (fst kv) = true) (p_a (std_properties n)).
Proof.
  apply Forall_forall. intros kv Hkv. apply (keys_occur n (fst kv)). apply in_map; auto.
Qed.

(** Inserting distinct keys into the empty map. *)
Lemma fold_insert_map (g : nodeX * X -> X) l :
  nodupk ptr_eq (map fst l) ->
  fold_left (fun a kv => hinsert ptr_eq (fst kv) (g kv) a) l [] = map (fun kv => (fst kv, g kv)) l.
Proof.
  intros Hn.
  enough (G : forall a, nodupk ptr_eq (map fst a ++ map fst l) ->
      fold_left (fun a kv => hinsert ptr_eq (fst kv) (g kv) a) l a = a ++ map (fun kv => (fst kv, g kv)) l)
    by (apply (G []); exact Hn).
  clear Hn; induction l as [|kv l IH]; intros a Hn; cbn [fold_left map].
  - rewrite app_nil_r; reflexivity.
  - rewrite hinsert_new; auto.
    + rewrite IH, <- app_assoc; cbn [app]; auto. rewrite map_app, <- app_assoc; exact Hn.
    + cbn [map] in Hn. revert Hn. generalize (map fst a) as ks, (map fst l) as ls, (fst kv) as k.
      clear. induction ks as [|k0 ks IH]; intros ls k; cbn; auto.
      intros [H1 H2]. rewrite existsb_app in H1. cbn in H1.
      apply orb_false_iff in H1 as [_ H1]. apply orb_false_iff in H1 as [H1 _].
      rewrite ptr_eq_sym, H1. cbn. eapply IH; eauto.
Qed.

Lemma lin_scale vs (g : X -> X) l :
  (forall c z, x2 Rmult (g c) z = g (x2 Rmult c z)) -> (forall a b, x2 Rplus (g a) (g b) = g (x2 Rplus a b)) ->
  g (Some 0) = Some 0 ->
  lin vs (map (fun kv => (fst kv, g (snd kv))) l) = g (lin vs l).
Proof.
  intros H1 H2 H3. induction l as [|[v c] l IH]; cbn [map].
  - symmetry; exact H3.
  - rewrite !lin_cons, IH. cbn [fst snd]. rewrite H1, H2. reflexivity.
Qed.

Lemma x_scale_gen vs (g : X -> X) l b :
  (forall c z, x2 Rmult (g c) z = g (x2 Rmult c z)) ->
  (forall a b, x2 Rplus (g a) (g b) = g (x2 Rplus a b)) ->
  x2 Rplus (lin vs (map (fun kv => (fst kv, g (snd kv))) l)) (g b) = g (x2 Rplus (lin vs l) b).
Proof.
  intros H1 H2. induction l as [|[v c] l IH]; cbn [map].
  - change (lin vs []) with (Some 0). rewrite !xplus_0_l. reflexivity.
  - rewrite !lin_cons. cbn [fst snd]. rewrite !xplus_assoc, IH, H1, H2. reflexivity.
Qed.

Theorem affine_value nsq k S vs (n : nodeX) :
  world nsq k S -> S n -> p_affine (std_properties n) = true ->
  evaluate vs n = x2 Rplus (lin vs (p_a (std_properties n))) (p_b (std_properties n)).
Proof.
  intros HW. induction n as [i w|i st kd|i args IH|i a IHa|i a b IHa IHb|i a b IHa IHb|i a IHa] using node_ind';
    intros Hn Haff.
  - symmetry; apply xplus_0_l.
  - cbn [std_properties p_a p_b]. rewrite lin_cons. cbn [fst snd].
    change (lin vs []) with (Some 0). change (n1 : X) with (Some 1). change (n0 : X) with (Some 0).
    destruct (evaluate vs (NVar i st kd)); cbn; auto. f_equal; lra.
  - rewrite evaluate_add. destruct (world_add_args nsq k S i args HW Hn) as (HS & _ & _).
    clear Hn. cbn [std_properties] in *. revert Haff.
    enough (G : forall acc, p_affine (fold_left (fun acc x =>
                   let p := std_properties x in
                   mk_std_prop (p_affine acc && p_affine p)
                               (fold_left merge_add (p_a p) (p_a acc))
                               (nadd (p_b acc) (p_b p))) args acc) = true ->
         let q := fold_left (fun acc x =>
                   let p := std_properties x in
                   mk_std_prop (p_affine acc && p_affine p)
                               (fold_left merge_add (p_a p) (p_a acc))
                               (nadd (p_b acc) (p_b p))) args acc in
         p_affine acc = true /\
         x2 Rplus (lin vs (p_a q)) (p_b q) =
         x2 Rplus (x2 Rplus (lin vs (p_a acc)) (p_b acc)) (xsum (map (evaluate vs) args))).
    { intros Haff. destruct (G _ Haff) as [_ G2]. cbn [p_a p_b] in G2.
      change (lin vs []) with (Some 0) in G2. change (n0 : X) with (Some 0) in G2.
      rewrite xplus_0_l, xplus_0_l in G2. symmetry; exact G2. }
    induction args as [|x args IHargs]; intros acc.
    + cbn. intros Ha. split; auto. change (xsum []) with (Some 0). rewrite xplus_0_r; reflexivity.
    + cbn [fold_left map]. intros Haff.
      inversion IH as [|? ? IHx IHl]; subst. inversion HS as [|? ? Sx Sl]; subst.
      destruct (IHargs IHl Sl _ Haff) as [Ha Hq]. cbn [p_affine p_a p_b] in Ha, Hq.
      apply andb_true_iff in Ha as [Ha1 Ha2]. split; auto.
      cbn zeta in *. rewrite Hq. rewrite lin_merge_fold by apply keys_var.
      rewrite xsum_cons, (IHx Sx Ha2). cbn [nadd NumX]. clear.
      generalize (xsum (map (evaluate vs) args)), (lin vs (p_a acc)), (p_b acc),
        (lin vs (p_a (std_properties x))), (p_b (std_properties x)).
      intros. repeat match goal with a : X |- _ => destruct a end; cbn; try reflexivity. f_equal; lra.
  - discriminate.
  - cbn [std_properties p_affine p_a p_b] in *. apply andb_true_iff in Haff as [Ha Hb].
    destruct (no_keys_const _ _ _ b HW) as (j & c & ->); auto. { eapply w_closed; eauto; cbn; auto. }
    cbn [std_properties p_a p_b]. cbn [fold_left].
    rewrite (fold_insert_map (fun kv => ndiv (snd kv) c)) by apply keys_nodup.
    cbn [evaluate]. rewrite IHa; auto; [|eapply w_closed; eauto; cbn; auto].
    symmetry. apply (x_scale_gen vs (fun z => xdiv z c)); intros; unfold xdiv.
    + destruct c0, z, c; cbn; try reflexivity; destruct (Req_EM_T _ 0); cbn; try reflexivity. f_equal; field; auto.
    + destruct a0, b, c; cbn; try reflexivity; destruct (Req_EM_T _ 0); cbn; try reflexivity. f_equal; field; auto.
  - cbn [std_properties p_affine p_a p_b] in *.
    apply orb_true_iff in Haff as [Haff|Haff]; apply andb_true_iff in Haff as [Ha Hb].
    + destruct (no_keys_const _ _ _ b HW) as (j & c & ->); auto. { eapply w_closed; eauto; cbn; auto. }
      cbn [std_properties p_a p_b]. cbn [fold_left].
      rewrite (fold_insert_map (fun kv => nmul (snd kv) c)) by apply keys_nodup.
      cbn [evaluate]. rewrite IHa; auto; [|eapply w_closed; eauto; cbn; auto].
      symmetry. apply (x_scale_gen vs (fun z => x2 Rmult z c)); intros; xring.
    + destruct (no_keys_const _ _ _ a HW) as (j & c & ->); auto. { eapply w_closed; eauto; cbn; auto. }
      cbn [std_properties p_a p_b]. cbn [fold_left].
      rewrite (fold_insert_map (fun kv => nmul (snd kv) c)) by apply keys_nodup.
      cbn [evaluate]. rewrite IHb; auto; [|eapply w_closed; eauto; cbn; auto].
      cbn [nmul NumX]. 
      transitivity (x2 Rmult (x2 Rplus (lin vs (p_a (std_properties b))) (p_b (std_properties b))) c).
      { generalize (lin vs (p_a (std_properties b))), (p_b (std_properties b)). intros; xring. }
      symmetry.
      transitivity (x2 Rplus (lin vs (map (fun kv => (fst kv, x2 Rmult (snd kv) c)) (p_a (std_properties b))))
                             (x2 Rmult (p_b (std_properties b)) c)).
      { f_equal. generalize (p_b (std_properties b)); intros; xring. }
      apply (x_scale_gen vs (fun z => x2 Rmult z c)); intros; xring.
  - discriminate.
Qed.
