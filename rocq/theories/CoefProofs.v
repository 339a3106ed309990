(** Proofs about the coefficients of linear models in binary64. *)
From Verif Require Import Base Num Node NodeInd NodeDiff NodeStd Constraint Matrix Problem ModelStd Model
     ExprSpec World MapProofs StdPropProofs EvalProofs GradProofs OccProofs ConstrSpec ConstrProofs PartsProofs ConstrEquiv
     MatSpec ProblemProofs BuildProofs BuildMain ModelSpec StdFacts
     Api ApiProofs ModelApi StdMain HistProofs HistAff TextSpec ExactSpec RoundSpec FmtProofs FloatProofs FloatOps RoundOps RoundProofs Properties_Text Properties_Exact Properties_Round
     NoFun RoundCoef CoefSpec.
From Coq Require Import Reals Lra Lia Floats.SpecFloat.
Local Open Scope R_scope.

Section Coef.
  Variables fsin fcos : F -> F.
  Notation NF := (NumF fsin fcos).
  Local Instance num_f : Num F := NF.
  Notation good := (RoundProofs.good fsin fcos).
  Notation gc := (RoundCoef.gc fsin fcos).

  Definition isc (n : node F) : Prop := exists i v, n = NConst i v.
  Record fitsa (n : node F) (a : aest) : Prop := {
    fa_b : forall vs, reads vs (fun _ => 0) -> good vs n (a_coef a None) (a_mag a None) (a_ops a);
    fa_c : forall vc, is_var vc = true -> gc vc n (a_coef a (Some (nid vc))) (a_mag a (Some (nid vc))) (a_ops a);
    fa_con : a_con a = true -> isc n;
    fa_nofun : nofun n = true }.
  Lemma fits_num i v : finite64 v -> fitsa (NConst i v) (a_num v).
  Proof.
    intros Hv. pose proof (proj1 (finite_fin v) Hv) as Fv. constructor; cbn [a_num a_coef a_mag a_ops a_con].
    - intros vs _. rewrite float_value_fval. apply good_const. exact Fv.
    - intros vc _. apply const_gc.
    - intros _. unfold isc. eauto.
    - reflexivity.
  Qed.
  Lemma sv_01 (b : bool) : sv (if b then flit 1 else flit 0) (if b then 1 else 0) (if b then 1 else 0) 0.
  Proof.
    destruct (flit_int 1 z1) as [F1 V1]. destruct b; [|apply sv0].
    constructor; [apply F1|rewrite Rabs_R1; lra|]. intros _. rewrite V1, Rminus_diag_eq by reflexivity. rewrite Rabs_R0. unfold gam. simpl. lra.
  Qed.
  Lemma fits_var k s kd : fitsa (NVar k s kd) (a_var k).
  Proof.
    constructor; cbn [a_var a_coef a_mag a_ops a_con].
    - intros vs Hr. pose proof (reads_var fsin fcos vs (fun _ => 0) k s kd Hr) as G. cbv beta in G. rewrite Rabs_R0 in G. exact G.
    - intros vc Hvc. apply sv_gc; [exact I|]. unfold cv, coefo. cbn [std_properties p_a hget fst snd].
      destruct vc as [|j s' kd'| | | | |]; try discriminate Hvc. cbn [ptr_eq nid].
      pose proof (sv_01 (Nat.eqb j k)) as G. destruct (Nat.eqb j k); exact G.
    - discriminate.
    - reflexivity.
  Qed.
  Lemma fits_is_var n : is_var n = true -> fitsa n (a_var (nid n)).
  Proof. destruct n as [|j s' kd'| | | | |]; try discriminate. intros _. apply fits_var. Qed.
  Lemma fits_sv i v a : fitsa (NConst i v) a -> sv v (a_coef a None) (a_mag a None) (a_ops a).
  Proof.
    intros Ha. assert (Hr : reads [] (fun _ => 0)) by (intros w x _ Hx; discriminate Hx).
    pose proof (good_sv _ _ _ _ _ _ _ (fa_b _ _ Ha [] Hr)) as G. exact G.
  Qed.
  Lemma sv_scalar v : fin v -> sv v (a_coef (a_num v) None) (a_mag (a_num v) None) (a_ops (a_num v)).
  Proof. intros Hv. cbn. rewrite float_value_fval. apply sv_exact. exact Hv. Qed.

  (** Constants stay constants. *)
  Lemma isc_add a b n k k' : isc a -> isc b -> add_nn a b k = Ok (n, k') -> isc n.
  Proof.
    intros (i & v & ->) (j & w & ->) E. unfold add_nn, add_other in E. cbn [is_constant_with_value fold_left add_outer] in E. unfold isc.
    destruct (neqb v n0); [injection E as <- _; eauto|]. destruct (neqb w n0); injection E as <- _; eauto.
  Qed.
  Lemma isc_other a b n k k' : isc a -> isc b -> add_other a b k = Ok (n, k') -> isc n.
  Proof. intros (i & v & ->) (j & w & ->) E. injection E as <- _. unfold isc. eauto. Qed.
  Lemma isc_mul a b n k k' : isc a -> isc b -> mul_nn a b k = Ok (n, k') -> isc n.
  Proof.
    intros (i & v & ->) (j & w & ->) E. unfold mul_nn in E. cbn [is_constant_with_value is_constant andb] in E. unfold isc, mk_const, ret in *.
    destruct (_ || _); [injection E as <- _; eauto|]. destruct (neqb v n1); [injection E as <- _; eauto|]. destruct (neqb w n1); injection E as <- _; eauto.
  Qed.
  Lemma isc_sn a v n k k' : isc a -> mul_sn v a k = Ok (n, k') -> isc n.
  Proof. intros (i & w & ->) E. cbn [mul_sn is_constant] in E. rewrite orb_true_r in E. injection E as <- _. unfold isc. eauto. Qed.
  Lemma isc_ns a v n k k' : isc a -> mul_ns a v k = Ok (n, k') -> isc n.
  Proof. intros (i & w & ->) E. cbn [mul_ns is_constant orb] in E. injection E as <- _. unfold isc. eauto. Qed.
  Lemma isc_div a v n k k' : isc a -> div_ns a v k = Ok (n, k') -> isc n.
  Proof.
    intros (i & w & ->) E. unfold div_ns in E. cbn [is_constant_with_value is_constant] in E. unfold isc, mk_const, ret in *.
    destruct (neqb v n0); [discriminate|]. destruct (neqb v n1); [injection E as <- _; eauto|]. destruct (neqb w n0); injection E as <- _; eauto.
  Qed.

  Lemma fits_add a b ea eb n k k' : fitsa a ea -> fitsa b eb -> add_nn a b k = Ok (n, k') -> fitsa n (a_add ea eb).
  Proof.
    intros Ha Hb E. constructor; cbn [a_add a_coef a_mag a_ops a_con].
    - intros vs Hr. exact (add_nn_good _ _ _ _ _ _ _ _ _ _ _ _ _ _ (fa_b _ _ Ha vs Hr) (fa_b _ _ Hb vs Hr) E).
    - intros vc Hv. exact (add_nn_gc _ _ _ _ _ _ _ _ _ _ _ _ _ _ (fa_c _ _ Ha vc Hv) (fa_c _ _ Hb vc Hv) E).
    - intros Hc. apply andb_true_iff in Hc as [C1 C2]. exact (isc_add _ _ _ _ _ (fa_con _ _ Ha C1) (fa_con _ _ Hb C2) E).
    - exact (add_nn_keeps _ _ (fa_nofun _ _ Ha) (fa_nofun _ _ Hb) _ _ _ E).
  Qed.
  Lemma fits_add_ns a ea v n k k' : fitsa a ea -> finite64 v -> add_ns a v k = Ok (n, k') -> fitsa n (a_add ea (a_num v)).
  Proof.
    intros Ha Hv E. pose proof (proj1 (finite_fin v) Hv) as Fv. constructor; cbn [a_add a_num a_coef a_mag a_ops a_con].
    - intros vs Hr. rewrite float_value_fval. exact (add_ns_good _ _ _ _ _ _ _ _ _ _ _ (fa_b _ _ Ha vs Hr) Fv E).
    - intros vc Hc. exact (add_ns_gc _ _ _ _ _ _ _ _ _ _ _ (fa_c _ _ Ha vc Hc) E).
    - rewrite andb_true_r. intros Hc. pose proof (fa_con _ _ Ha Hc) as C. unfold add_ns in E. destruct (neqb v n0).
      + injection E as <- _. exact C.
      + apply bind_ok in E as (x & k1 & E1 & E2). injection E1 as <- <-. eapply isc_other; [exact C| |exact E2]. unfold isc. eauto.
    - exact (add_ns_keeps _ _ (fa_nofun _ _ Ha) _ _ _ E).
  Qed.
  Lemma fits_add_sn a ea v n k k' : fitsa a ea -> finite64 v -> add_sn v a k = Ok (n, k') -> fitsa n (a_add (a_num v) ea).
  Proof.
    intros Ha Hv E. pose proof (proj1 (finite_fin v) Hv) as Fv. constructor; cbn [a_add a_num a_coef a_mag a_ops a_con].
    - intros vs Hr. rewrite float_value_fval. exact (add_sn_good _ _ _ _ _ _ _ _ _ _ _ (fa_b _ _ Ha vs Hr) Fv E).
    - intros vc Hc. exact (add_sn_gc _ _ _ _ _ _ _ _ _ _ _ (fa_c _ _ Ha vc Hc) E).
    - cbn [andb]. intros Hc. pose proof (fa_con _ _ Ha Hc) as C. unfold add_sn in E. destruct (neqb v n0).
      + injection E as <- _. exact C.
      + apply bind_ok in E as (x & k1 & E1 & E2). injection E1 as <- <-. eapply isc_other; [|exact C|exact E2]. unfold isc. eauto.
    - exact (add_sn_keeps _ _ (fa_nofun _ _ Ha) _ _ _ E).
  Qed.
  Lemma fits_sub a b ea eb n k k' : fitsa a ea -> fitsa b eb -> sub_nn a b k = Ok (n, k') -> fitsa n (a_sub ea eb).
  Proof.
    intros Ha Hb E. constructor; cbn [a_sub a_coef a_mag a_ops a_con].
    - intros vs Hr. exact (sub_nn_good _ _ _ _ _ _ _ _ _ _ _ _ _ _ (fa_b _ _ Ha vs Hr) (fa_b _ _ Hb vs Hr) E).
    - intros vc Hv. exact (sub_nn_gc _ _ _ _ _ _ _ _ _ _ _ _ _ _ (fa_c _ _ Ha vc Hv) (fa_c _ _ Hb vc Hv) E).
    - intros Hc. apply andb_true_iff in Hc as [C1 C2]. apply bind_ok in E as (x & k1 & E1 & E2).
      exact (isc_add _ _ _ _ _ (fa_con _ _ Ha C1) (isc_sn _ _ _ _ _ (fa_con _ _ Hb C2) E1) E2).
    - exact (sub_nn_keeps _ _ (fa_nofun _ _ Ha) (fa_nofun _ _ Hb) _ _ _ E).
  Qed.
  Lemma fits_sub_ns a ea v n k k' : fitsa a ea -> finite64 v -> sub_ns a v k = Ok (n, k') -> fitsa n (a_sub ea (a_num v)).
  Proof. intros Ha Hv E. apply bind_ok in E as (c & k0 & E0 & E). injection E0 as <- <-. eapply (fits_sub a (NConst k v)); [exact Ha|apply fits_num; exact Hv|exact E]. Qed.
  Lemma fits_sub_sn a ea v n k k' : fitsa a ea -> finite64 v -> sub_sn v a k = Ok (n, k') -> fitsa n (a_sub (a_num v) ea).
  Proof. intros Ha Hv E. apply bind_ok in E as (c & k0 & E0 & E). injection E0 as <- <-. eapply (fits_sub (NConst k v) a); [apply fits_num; exact Hv|exact Ha|exact E]. Qed.
  Lemma many_comm a b : many a b = many b a. Proof. unfold many. rewrite Nat.mul_comm. reflexivity. Qed.
  Lemma fits_mul_l a b ea eb n k k' : fitsa a ea -> fitsa b eb -> a_con ea = true -> mul_nn a b k = Ok (n, k') -> fitsa n (a_scale ea eb).
  Proof.
    intros Ha Hb C E. pose proof (fa_con _ _ Ha C) as (i & v & ->). constructor; cbn [a_scale a_coef a_mag a_ops a_con].
    - intros vs Hr. exact (mul_nn_good _ _ _ _ _ _ _ _ _ _ _ _ _ _ (fa_b _ _ Ha vs Hr) (fa_b _ _ Hb vs Hr) E).
    - intros vc Hv. exact (mul_nn_gc_l _ _ _ _ _ _ _ _ _ _ _ _ _ _ _ (fits_sv _ _ _ Ha) (fa_c _ _ Hb vc Hv) E).
    - intros Hc. exact (isc_mul _ _ _ _ _ (fa_con _ _ Ha C) (fa_con _ _ Hb Hc) E).
    - exact (mul_nn_keeps _ _ (fa_nofun _ _ Ha) (fa_nofun _ _ Hb) _ _ _ E).
  Qed.
  Lemma fits_mul_r a b ea eb n k k' : fitsa a ea -> fitsa b eb -> a_con eb = true -> mul_nn a b k = Ok (n, k') -> fitsa n (a_scale eb ea).
  Proof.
    intros Ha Hb C E. pose proof (fa_con _ _ Hb C) as (i & v & ->). constructor; cbn [a_scale a_coef a_mag a_ops a_con].
    - intros vs Hr. fold (many (a_ops eb) (a_ops ea)). rewrite many_comm, Rmult_comm, (Rmult_comm (a_mag eb _)), (Nat.add_comm (a_ops eb)).
      exact (mul_nn_good _ _ _ _ _ _ _ _ _ _ _ _ _ _ (fa_b _ _ Ha vs Hr) (fa_b _ _ Hb vs Hr) E).
    - intros vc Hv. fold (many (a_ops eb) (a_ops ea)). rewrite many_comm, Rmult_comm, (Rmult_comm (a_mag eb _)), (Nat.add_comm (a_ops eb)).
      exact (mul_nn_gc_r _ _ _ _ _ _ _ _ _ _ _ _ _ _ _ (fits_sv _ _ _ Hb) (fa_c _ _ Ha vc Hv) E).
    - intros Hc. exact (isc_mul _ _ _ _ _ (fa_con _ _ Ha Hc) (fa_con _ _ Hb C) E).
    - exact (mul_nn_keeps _ _ (fa_nofun _ _ Ha) (fa_nofun _ _ Hb) _ _ _ E).
  Qed.
  Lemma fits_mul_ns a ea v n k k' : fitsa a ea -> finite64 v -> mul_ns a v k = Ok (n, k') -> fitsa n (a_scale (a_num v) ea).
  Proof.
    intros Ha Hv E. pose proof (proj1 (finite_fin v) Hv) as Fv. constructor.
    - intros vs Hr. cbn [a_scale a_num a_coef a_mag a_ops a_con]. fold (many 0 (a_ops ea)).
      rewrite float_value_fval, many_comm, Rmult_comm, (Rmult_comm (Rabs _)), (Nat.add_comm 0).
      exact (mul_ns_good _ _ _ _ _ _ _ _ _ _ _ Fv (fa_b _ _ Ha vs Hr) E).
    - intros vc Hc. cbn [a_scale a_coef a_mag a_ops a_con]. fold (many (a_ops (a_num v)) (a_ops ea)).
      rewrite many_comm, Rmult_comm, (Rmult_comm (a_mag (a_num v) None)), (Nat.add_comm (a_ops (a_num v))).
      exact (mul_ns_gc _ _ _ _ _ _ _ _ _ _ _ _ _ _ (sv_scalar v Fv) (fa_c _ _ Ha vc Hc) E).
    - cbn [a_scale a_con]. intros Hc. exact (isc_ns _ _ _ _ _ (fa_con _ _ Ha Hc) E).
    - exact (mul_ns_keeps _ _ (fa_nofun _ _ Ha) _ _ _ E).
  Qed.
  Lemma fits_mul_sn a ea v n k k' : fitsa a ea -> finite64 v -> mul_sn v a k = Ok (n, k') -> fitsa n (a_scale (a_num v) ea).
  Proof.
    intros Ha Hv E. pose proof (proj1 (finite_fin v) Hv) as Fv. constructor.
    - intros vs Hr. cbn [a_scale a_num a_coef a_mag a_ops a_con]. fold (many 0 (a_ops ea)). rewrite float_value_fval.
      exact (mul_sn_good _ _ _ _ _ _ _ _ _ _ _ Fv (fa_b _ _ Ha vs Hr) E).
    - intros vc Hc. cbn [a_scale a_coef a_mag a_ops a_con].
      exact (mul_sn_gc _ _ _ _ _ _ _ _ _ _ _ _ _ _ (sv_scalar v Fv) (fa_c _ _ Ha vc Hc) E).
    - cbn [a_scale a_con]. intros Hc. exact (isc_sn _ _ _ _ _ (fa_con _ _ Ha Hc) E).
    - exact (mul_sn_keeps _ _ (fa_nofun _ _ Ha) _ _ _ E).
  Qed.
  Lemma fits_div a ea v n k k' : fitsa a ea -> finite64 v -> div_ns a v k = Ok (n, k') -> fitsa n (a_div ea v).
  Proof.
    intros Ha Hv E. pose proof (proj1 (finite_fin v) Hv) as Fv. constructor; cbn [a_div a_coef a_mag a_ops a_con].
    - intros vs Hr. rewrite float_value_fval. exact (div_ns_good _ _ _ _ _ _ _ _ _ _ _ (fa_b _ _ Ha vs Hr) Fv E).
    - intros vc Hc. rewrite float_value_fval. exact (div_ns_gc _ _ _ _ _ _ _ _ _ _ _ (fa_c _ _ Ha vc Hc) Fv E).
    - intros Hc. exact (isc_div _ _ _ _ _ (fa_con _ _ Ha Hc) E).
    - exact (div_ns_keeps _ _ (fa_nofun _ _ Ha) _ _ _ E).
  Qed.
  Lemma fits_neg a ea n k k' : fitsa a ea -> neg_n a k = Ok (n, k') -> fitsa n (a_neg ea).
  Proof.
    intros Ha E. constructor; cbn [a_neg a_coef a_mag a_ops a_con].
    - intros vs Hr. exact (neg_n_good _ _ _ _ _ _ _ _ _ _ (fa_b _ _ Ha vs Hr) E).
    - intros vc Hc. exact (neg_n_gc _ _ _ _ _ _ _ _ _ _ (fa_c _ _ Ha vc Hc) E).
    - intros Hc. destruct (fa_con _ _ Ha Hc) as (i & w & ->). injection E as <- _. unfold isc. eauto.
    - exact (neg_n_keeps _ (fa_nofun _ _ Ha) _ _ _ E).
  Qed.

  Lemma F2_nth {A B} (Q : A -> B -> Prop) l l' i a b : Forall2 Q l l' -> nth_error l i = Some a -> nth_error l' i = Some b -> Q a b.
  Proof.
    intros Hf. revert i. induction Hf as [|x y l l' Hxy Hf IH]; intros i H1 H2; destruct i; cbn in *; try discriminate; [|eauto].
    injection H1 as <-. injection H2 as <-. exact Hxy.
  Qed.
  Lemma aff_step (O : HashOrd) k pool es o n k' e :
    Forall2 fitsa pool es -> aff_est k es o e -> @exec F NF O pool o k = Ok (n, k') -> fitsa n e.
  Proof.
    intros Hf Ho E.
    destruct Ho as [s kd|v Hv|i j a b Ha Hb|i v a Ha Hv|i v a Ha Hv|i j a b Ha Hb|i v a Ha Hv|i v a Ha Hv|i j a b Ha Hb Hc|i j a b Ha Hb Hc|i v a Ha Hv|i v a Ha Hv|i v a Ha Hv|i a Ha|i a Ha];
      cbn [exec] in E;
      try (apply (@with2_ok F NF) in E as (x & y & Ex & Ey & E); pose proof (F2_nth _ _ _ _ _ _ Hf Ey Hb) as Gb);
      try (apply (@with1_ok F NF) in E as (x & Ex & E));
      try (pose proof (F2_nth _ _ _ _ _ _ Hf Ex Ha) as Ga).
    - injection E as <- _. apply fits_var.
    - injection E as <- _. apply fits_num. exact Hv.
    - eapply fits_add; eauto.
    - eapply fits_add_ns; eauto.
    - eapply fits_add_sn; eauto.
    - eapply fits_sub; eauto.
    - eapply fits_sub_ns; eauto.
    - eapply fits_sub_sn; eauto.
    - eapply fits_mul_l; eauto.
    - eapply fits_mul_r; eauto.
    - eapply fits_mul_ns; eauto.
    - eapply fits_mul_sn; eauto.
    - eapply fits_div; eauto.
    - eapply fits_neg; eauto.
    - injection E as <- _. exact Ga.
  Qed.
  (** Such calls are affine. *)
  Lemma aff_est_affine pool k es o e : Forall2 fitsa pool es -> aff_est k es o e -> affine_op pool o.
  Proof.
    intros Hf Ho. destruct Ho as [s kd|v Hv|i j a b Ha Hb|i v a Ha Hv|i v a Ha Hv|i j a b Ha Hb|i v a Ha Hv|i v a Ha Hv|i j a b Ha Hb Hc|i j a b Ha Hb Hc|i v a Ha Hv|i v a Ha Hv|i v a Ha Hv|i a Ha|i a Ha];
      cbn [affine_op]; auto; intros x y Ex Ey.
    - left. destruct (fa_con _ _ (F2_nth _ _ _ _ _ _ Hf Ex Ha) Hc) as (j0 & w & ->). reflexivity.
    - right. destruct (fa_con _ _ (F2_nth _ _ _ _ _ _ Hf Ey Hb) Hc) as (j0 & w & ->). reflexivity.
  Qed.

  (** What is extracted is close to the exact coefficients. *)
  Definition zeros (n : node F) : vals F := map (fun v => (v, flit 0)) (map fst (p_a (std_properties n))).
  Lemma zeros_reads n : reads (zeros n) (fun _ => 0).
  Proof.
    intros v x _ Hx. unfold zeros in Hx. apply hget_some_in in Hx as (w & Hin & _). apply in_map_iff in Hin as (w' & Ew & _). pose proof (f_equal snd Ew) as Ex; cbn [snd] in Ex; rewrite <- Ex.
    split; [apply fin_flit0|]. intros _. rewrite float_value_fval, fval_flit0. reflexivity.
  Qed.
  Lemma zeros_get n v : occurs v n -> hget ptr_eq v (zeros n) = Some (@n0 F num_f).
  Proof.
    change (@n0 F num_f) with (flit 0).
    intros Ho. pose proof (occurs_has n v Ho) as Hh. unfold zeros. clear Ho. induction (map fst (p_a (std_properties n))) as [|w l IH]; [discriminate Hh|].
    cbn [map hget]. cbn [fst snd]. destruct (ptr_eq v w) eqn:E; [reflexivity|]. apply IH. cbn in Hh. rewrite E in Hh. exact Hh.
  Qed.
  Lemma fits_pb n a : fitsa n a -> sv (p_b (std_properties n)) (a_coef a None) (a_mag a None) (a_ops a).
  Proof.
    intros Ha. rewrite (pb_evaluate (zeros n) n (fa_nofun _ _ Ha) (zeros_get n)). apply good_sv. apply (fa_b _ _ Ha). apply zeros_reads.
  Qed.
  Lemma fits_pa n a v : fitsa n a -> is_var v = true ->
    sv (match hget ptr_eq v (p_a (std_properties n)) with Some x => x | None => flit 0 end) (a_coef a (Some (nid v))) (a_mag a (Some (nid v))) (a_ops a).
  Proof. intros Ha Hv. exact (gc_sv _ _ _ _ _ _ _ (fa_c _ _ Ha v Hv)). Qed.
  Lemma sv_close x f m k : sv x f m k -> close x f k m.
  Proof. intros [V A E]. split; [exact V|]. intros Hf. rewrite float_value_fval. apply E. apply finite_fin. split; [exact V|exact Hf]. Qed.
  Lemma sv_close_neg x f m k : sv x f m k -> close (nneg x) (- f) k m.
  Proof.
    intros [V A E]. assert (Vo : vb (SFopp x)) by (destruct x; exact V). split; [exact Vo|]. intros Hf.
    assert (Hx : fin x) by (split; [exact V|destruct x; cbn in Hf |- *; auto]). destruct (fopp_fin x Hx) as [_ Ho].
    change (Rabs (float_value (SFopp x) - - f) <= error_bound k m). rewrite float_value_fval, Ho.
    replace (- fval x - - f) with (- (fval x - f)) by ring. rewrite Rabs_Ropp. apply E. exact Hx.
  Qed.
  Lemma sv_absent f m k : sv (flit 0) f m k -> Rabs f <= error_bound k m.
  Proof. intros [V A E]. specialize (E fin_flit0). rewrite fval_flit0 in E. rewrite Rabs_minus_sym, Rminus_0_r in E. exact E. Qed.
End Coef.
