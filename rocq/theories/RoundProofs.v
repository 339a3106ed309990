(** Proofs about rounding errors of expressions. *)
From Verif Require Import Base Num Node NodeInd ExprSpec EvalProofs Api TextSpec ExactSpec RoundSpec FmtProofs FloatProofs FloatOps RoundOps Properties_Text.
From Coq Require Import Reals Lra Lia Floats.SpecFloat.
From Flocq Require Import Core.
Local Open Scope R_scope.

(** *** Real arithmetic of the bound *)
Notation u := unit_roundoff.
Definition gam (k : nat) : R := (1 + u) ^ k - 1.
Lemma u_pos : 0 < u.
Proof. unfold u. apply Rinv_0_lt_compat. apply pow_lt. lra. Qed.
Lemma u_bpow : / 2 * bpow radix2 (-52) = u.
Proof.
  unfold u. rewrite bpow2. change (-52)%Z with (- Z.of_nat 52)%Z. rewrite powerRZ_neg', <- pow_powerRZ.
  change (2 ^ 53) with (2 * 2 ^ 52). rewrite Rinv_mult. reflexivity.
Qed.
Lemma tiny_pos : 0 < tiny.
Proof. unfold tiny. apply Rinv_0_lt_compat. apply pow_lt. lra. Qed.
Lemma eta_bpow : / 2 * bpow radix2 (-1074) = u * tiny.
Proof.
  unfold u, tiny. rewrite bpow2. change (-1074)%Z with (- Z.of_nat 1074)%Z. rewrite powerRZ_neg', <- pow_powerRZ.
  rewrite <- !Rinv_mult. f_equal. rewrite <- pow_add. rewrite tech_pow_Rmult. f_equal.
Qed.
Lemma pow1u k : 1 <= (1 + u) ^ k.
Proof. apply pow_R1_Rle. pose proof u_pos. lra. Qed.
Lemma gam_pos k : 0 <= gam k.
Proof. unfold gam. pose proof (pow1u k). lra. Qed.
Lemma gam_mono a b : (a <= b)%nat -> gam a <= gam b.
Proof. intros Hl. unfold gam. assert ((1 + u) ^ a <= (1 + u) ^ b) by (apply Rle_pow; [pose proof u_pos; lra|exact Hl]). lra. Qed.
Lemma gam_S k : gam (S k) = gam k + u * (1 + gam k).
Proof. unfold gam. rewrite <- tech_pow_Rmult. ring. Qed.
Lemma gam_add a b : 1 + gam (a + b) = (1 + gam a) * (1 + gam b).
Proof. unfold gam. rewrite pow_add. ring. Qed.
Lemma Rabs_split a b c : Rabs (a - c) <= Rabs (a - b) + Rabs (b - c).
Proof. replace (a - c) with ((a - b) + (b - c)) by ring. apply Rabs_triang. Qed.
Lemma near_abs x f m k : Rabs f <= m -> Rabs (x - f) <= gam k * m -> Rabs x <= (1 + gam k) * m.
Proof. intros Hf Hx. replace x with ((x - f) + f) by ring. eapply Rle_trans; [apply Rabs_triang|]. lra. Qed.
Lemma near_mul x f m k y g l j : Rabs f <= m -> Rabs (x - f) <= gam k * m -> Rabs g <= l -> Rabs (y - g) <= gam j * l ->
  Rabs (x * y - f * g) <= gam (k + j) * (m * l).
Proof.
  intros Hf Hx Hg Hy. replace (x * y - f * g) with ((x - f) * y + f * (y - g)) by ring.
  eapply Rle_trans; [apply Rabs_triang|]. rewrite !Rabs_mult.
  assert (Hm : 0 <= m) by (eapply Rle_trans; [apply Rabs_pos|exact Hf]). assert (Hl : 0 <= l) by (eapply Rle_trans; [apply Rabs_pos|exact Hg]).
  apply Rle_trans with (gam k * m * ((1 + gam j) * l) + m * (gam j * l)).
  - apply Rplus_le_compat; apply Rmult_le_compat; try apply Rabs_pos; auto. eapply near_abs; eauto.
  - right. pose proof (gam_add k j) as E. replace (gam (k + j)) with ((1 + gam k) * (1 + gam j) - 1) by lra. ring.
Qed.
Lemma near_round x v f m k e : Rabs f <= m -> Rabs (v - f) <= gam k * m -> 0 <= e -> Rabs (x - v) <= u * Rabs v + u * e ->
  Rabs (x - f) <= gam (S k) * (m + e).
Proof.
  intros Hf Hv He Hx. eapply Rle_trans; [apply (Rabs_split x v f)|].
  pose proof (near_abs v f m k Hf Hv) as Ha. pose proof u_pos. pose proof (gam_pos k). rewrite gam_S.
  assert (u * Rabs v <= u * ((1 + gam k) * m)) by (apply Rmult_le_compat_l; lra).
  assert (0 <= gam k * e) by (apply Rmult_le_pos; lra).
  assert (0 <= u * (gam k * e)) by (apply Rmult_le_pos; lra). lra.
Qed.

(** *** Values: [x] stands for [f], of magnitude [m], after [k] roundings. *)
Record sv (x : F) (f m : R) (k : nat) : Prop := {
  sv_vb : vb x;
  sv_abs : Rabs f <= m;
  sv_err : fin x -> Rabs (fval x - f) <= gam k * m }.
Lemma sv_mag x f m k : sv x f m k -> 0 <= m.
Proof. intros [_ Ha _]. eapply Rle_trans; [apply Rabs_pos|exact Ha]. Qed.
Lemma sv_weak x f m k m' k' : sv x f m k -> m <= m' -> (k <= k')%nat -> sv x f m' k'.
Proof.
  intros Hs Hm Hk. pose proof (sv_mag _ _ _ _ Hs). destruct Hs as [V Ha He]. constructor; [exact V|lra|]. intros Hf. eapply Rle_trans; [apply He; exact Hf|].
  apply Rmult_le_compat; [apply gam_pos|lra|apply gam_mono; exact Hk|exact Hm].
Qed.
Lemma sv_exact x : fin x -> sv x (fval x) (Rabs (fval x)) 0.
Proof. intros Hx. constructor; [apply Hx|lra|]. intros _. unfold gam. rewrite Rminus_diag_eq by reflexivity. rewrite Rabs_R0. simpl. lra. Qed.
Lemma sv_add x f m y g l k : sv x f m k -> sv y g l k -> sv (SFadd 53 1024 x y) (f + g) (m + l) (S k).
Proof.
  intros [Vx Ax Ex] [Vy Ay Ey]. constructor; [apply add_vb; assumption|eapply Rle_trans; [apply Rabs_triang|lra]|].
  intros Hf. destruct (add_back x y Vx Vy Hf) as (Hx & Hy & ->). specialize (Ex Hx). specialize (Ey Hy).
  replace (m + l) with (m + l + 0) by ring. apply near_round with (fval x + fval y).
  - eapply Rle_trans; [apply Rabs_triang|lra].
  - replace (fval x + fval y - (f + g)) with ((fval x - f) + (fval y - g)) by ring. eapply Rle_trans; [apply Rabs_triang|lra].
  - lra.
  - rewrite <- u_bpow. eapply Rle_trans; [apply (add_error x y Hx Hy)|]. lra.
Qed.
Lemma fval_flit0 : fval (flit 0) = 0. Proof. reflexivity. Qed.
Lemma fin_flit0 : fin (flit 0). Proof. split; reflexivity. Qed.
Lemma sv_add0 x f m k : sv x f m k -> sv (SFadd 53 1024 (flit 0) x) f m k.
Proof.
  intros [V A E]. constructor; [apply add_vb; [apply fin_flit0|exact V]|exact A|].
  intros Hf. destruct (add_back (flit 0) x (proj1 fin_flit0) V Hf) as (_ & Hx & ->). rewrite fval_flit0, Rplus_0_l, fin_RN by exact Hx. auto.
Qed.
Lemma sv_mul x f m k y g l j : sv x f m k -> sv y g l j -> sv (SFmul 53 1024 x y) (f * g) (m * l + tiny) (S (k + j)).
Proof.
  intros Sx Sy. pose proof (sv_mag _ _ _ _ Sx) as Hm. pose proof (sv_mag _ _ _ _ Sy) as Hl. destruct Sx as [Vx Ax Ex], Sy as [Vy Ay Ey]. pose proof tiny_pos.
  constructor; [apply mul_vb; assumption|rewrite Rabs_mult; apply Rle_trans with (m * l); [apply Rmult_le_compat; try apply Rabs_pos; auto|lra]|].
  intros Hf. destruct (mul_back x y Vx Vy Hf) as (Hx & Hy & ->). specialize (Ex Hx). specialize (Ey Hy).
  apply near_round with (fval x * fval y).
  - rewrite Rabs_mult. apply Rmult_le_compat; try apply Rabs_pos; auto.
  - apply near_mul; auto.
  - lra.
  - rewrite <- eta_bpow, <- u_bpow. apply any_error.
Qed.
Lemma sv_div x f m k y : sv x f m k -> fin y -> fval y <> 0 -> sv (SFdiv 53 1024 x y) (f / fval y) (m / Rabs (fval y) + tiny) (S k).
Proof.
  intros Sx Hy Ny. pose proof (sv_mag _ _ _ _ Sx) as Hm. destruct Sx as [Vx Ax Ex]. pose proof tiny_pos.
  assert (Hp : 0 < / Rabs (fval y)) by (apply Rinv_0_lt_compat, Rabs_pos_lt; exact Ny).
  assert (Hd : forall z, Rabs (z / fval y) = Rabs z * / Rabs (fval y)) by (intros z; unfold Rdiv; rewrite Rabs_mult, Rabs_inv; reflexivity).
  assert (Hq : Rabs (f / fval y) <= m / Rabs (fval y)) by (rewrite Hd; apply Rmult_le_compat_r; lra).
  constructor; [apply div_vb; [exact Vx|apply Hy]|lra|].
  intros Hf. destruct (div_back x y Vx Hy Ny Hf) as (Hx & ->). specialize (Ex Hx).
  apply near_round with (fval x / fval y); [exact Hq| |lra|rewrite <- eta_bpow, <- u_bpow; apply any_error].
  replace (fval x / fval y - f / fval y) with ((fval x - f) / fval y) by (field; exact Ny). rewrite Hd. unfold Rdiv. rewrite <- Rmult_assoc.
  apply Rmult_le_compat_r; lra.
Qed.
(** Multiplying by minus one is exact. *)
Lemma fin_m1 : fin (SFopp (flit 1)) /\ fval (SFopp (flit 1)) = -1.
Proof.
  destruct (flit_int 1 ltac:(cbn; lia)) as [H1 V1]. destruct (fopp_fin _ H1) as [H2 V2]. split; [exact H2|]. rewrite V2, V1. reflexivity.
Qed.
Lemma sv_neg x f m k : sv x f m k -> sv (SFmul 53 1024 (SFopp (flit 1)) x) (- f) m k.
Proof.
  intros [V A E]. destruct fin_m1 as [H1 V1]. constructor; [apply mul_vb; [apply H1|exact V]|rewrite Rabs_Ropp; exact A|].
  intros Hf. destruct (mul_back _ x (proj1 H1) V Hf) as (_ & Hx & ->). rewrite V1. replace (-1 * fval x) with (- fval x) by ring.
  rewrite RN_opp, fin_RN by exact Hx. replace (- fval x - - f) with (- (fval x - f)) by ring. rewrite Rabs_Ropp. auto.
Qed.
(** A value that is zero or one stands for small numbers or numbers near one. *)
Lemma neqb_fin x z : (Z.abs z <= 2 ^ 53)%Z -> vb x -> SFeqb x (flit z) = true -> fin x /\ fval x = IZR z.
Proof.
  intros Hz V E. destruct (flit_int z Hz) as [H1 V1]. assert (Hx : fin x).
  { split; [exact V|]. destruct H1 as [_ H1]. destruct x as [s|s| |s m e]; [reflexivity| | |reflexivity].
    - destruct (flit z) as [s'|s'| |s' m' e']; try discriminate H1; cbn in E; try discriminate E; destruct s; discriminate E.
    - destruct (flit z) as [s'|s'| |s' m' e']; discriminate E. }
  split; [exact Hx|]. rewrite (feqb_fin _ _ Hx H1) in E. (destruct (Req_bool_spec (fval x) (fval (flit z))); [|discriminate]). lra.
Qed.

(** One factor is zero, or one. *)
Lemma sv_zero s fs ms ks x f m k : sv s fs ms ks -> fin s -> fval s = 0 -> sv x f m k -> sv (flit 0) (fs * f) (ms * m) ks.
Proof.
  intros Ss Hs Es Sx. pose proof (sv_mag _ _ _ _ Ss). destruct Ss as [_ As Er], Sx as [_ Ax _]. specialize (Er Hs). rewrite Es in Er.
  constructor; [apply fin_flit0|rewrite Rabs_mult; apply Rmult_le_compat; try apply Rabs_pos; auto|].
  intros _. rewrite fval_flit0. replace (0 - fs * f) with ((0 - fs) * f) by ring. rewrite Rabs_mult, <- Rmult_assoc.
  apply Rmult_le_compat; try apply Rabs_pos; auto.
Qed.
Lemma sv_one s fs ms ks x f m k : sv s fs ms ks -> fin s -> fval s = 1 -> sv x f m k -> sv x (fs * f) (ms * m) (ks + k).
Proof.
  intros Ss Hs Es Sx. destruct Ss as [_ As Er], Sx as [Vx Ax Ex]. specialize (Er Hs). rewrite Es in Er.
  constructor; [exact Vx|rewrite Rabs_mult; apply Rmult_le_compat; try apply Rabs_pos; auto|].
  intros Hx. specialize (Ex Hx). rewrite <- (Rmult_1_l (fval x)). apply near_mul; auto.
Qed.
Lemma sv_absorb x f m k c cf cm j K : sv x f m k -> sv c cf cm j -> fin c -> fval c = 0 -> (k <= K)%nat -> (j <= K)%nat -> sv x (f + cf) (m + cm) K.
Proof.
  intros Sx Sc Hc Ec Hk Hj. pose proof (sv_weak _ _ _ _ m K Sx (Rle_refl _) Hk) as [V A E]. pose proof (sv_weak _ _ _ _ cm K Sc (Rle_refl _) Hj) as [_ Ac Er].
  specialize (Er Hc). rewrite Ec in Er. constructor; [exact V|eapply Rle_trans; [apply Rabs_triang|lra]|].
  intros Hx. specialize (E Hx). replace (fval x - (f + cf)) with ((fval x - f) + (0 - cf)) by ring.
  eapply Rle_trans; [apply Rabs_triang|]. lra.
Qed.

(** *** Expressions *)
Definition terms {T} (n : node T) : list (node T) := match n with NAdd _ l => l | _ => [n] end.
Definition notsum {T} (n : node T) : Prop := match n with NAdd _ _ => False | _ => True end.
Lemma notsum_terms {T} (n : node T) : notsum n -> terms n = [n].
Proof. destruct n; cbn; intros Hn; try reflexivity. destruct Hn. Qed.
Fixpoint tot (l : list R) : R := match l with [] => 0 | x :: r => x + tot r end.
Lemma tot_app a b : tot (a ++ b) = tot a + tot b.
Proof. induction a as [|x a IH]; cbn; [lra|]. rewrite IH. lra. Qed.

Lemma F2_len {A B} (Q : A -> B -> Prop) l l' : Forall2 Q l l' -> length l = length l'.
Proof. intros Hl. induction Hl; cbn; congruence. Qed.

Section Expr.
  Variables fsin fcos : F -> F.
  Notation NF := (NumF fsin fcos).
  Local Instance num_f : Num F := NF.
  Variable vs : vals F.
  Notation ev := (@evaluate F NF vs).

  Definition P (K : nat) (x : node F) (e : R * R) : Prop := notsum x /\ sv (ev x) (fst e) (snd e) K.
  Lemma P_weak K K' x e : P K x e -> (K <= K')%nat -> P K' x e.
  Proof. intros [H1 H2] Hk. split; [exact H1|]. eapply sv_weak; [exact H2|lra|exact Hk]. Qed.
  Lemma PF_weak K K' l es : Forall2 (P K) l es -> (K <= K')%nat -> Forall2 (P K') l es.
  Proof. intros Hf Hk. induction Hf as [|x e l es Hx Hf IH]; constructor; eauto using P_weak. Qed.
  Lemma PF_mag K l es : Forall2 (P K) l es -> 0 <= tot (map snd es).
  Proof. intros Hf. induction Hf as [|x e l es [_ Hx] Hf IH]; cbn [map tot fst snd] in *; [lra|]. pose proof (sv_mag _ _ _ _ Hx). lra. Qed.

  (** [n] stands for [f], of magnitude [m], after [k] roundings, and so do its terms. *)
  Definition good (n : node F) (f m : R) (k : nat) : Prop :=
    exists K es, terms n <> [] /\ Forall2 (P K) (terms n) es /\ f = tot (map fst es) /\ tot (map snd es) <= m /\ (K + length (terms n) <= S k)%nat.

  Lemma good_weak n f m k m' k' : good n f m k -> m <= m' -> (k <= k')%nat -> good n f m' k'.
  Proof. intros (K & es & H1 & H2 & H3 & H4 & H5) Hm Hk. exists K, es. repeat split; auto; [lra|lia]. Qed.
  Lemma sv_good n f m k : notsum n -> sv (ev n) f m k -> good n f m k.
  Proof.
    intros Hn Hs. exists k, [(f, m)]. rewrite (notsum_terms n Hn). repeat split; [discriminate| |cbn; lra|cbn; lra|cbn; lia].
    constructor; [split; auto|constructor].
  Qed.
  Lemma sum_sv K l es : Forall2 (P K) l es -> forall acc f m k, sv acc f m k -> (K <= k)%nat ->
    sv (fold_left (fun a x => nadd a (ev x)) l acc) (f + tot (map fst es)) (m + tot (map snd es)) (k + length l).
  Proof.
    intros Hf. induction Hf as [|x e l es [_ Hx] Hf IH]; intros acc f m k Ha Hk.
    - cbn. rewrite !Rplus_0_r, Nat.add_0_r. exact Ha.
    - cbn [fold_left length map tot]. replace (k + S (length l))%nat with (S k + length l)%nat by lia.
      rewrite <- !Rplus_assoc. apply IH; [|lia]. apply sv_add; [exact Ha|]. eapply sv_weak; [exact Hx|lra|exact Hk].
  Qed.
  Lemma good_sv n f m k : good n f m k -> sv (ev n) f m k.
  Proof.
    intros (K & es & H1 & H2 & -> & H4 & H5).
    assert (G : sv (ev n) (tot (map fst es)) (tot (map snd es)) k).
    { destruct n as [i v|i s kd|i l|i a|i a b|i a b|i a]; cbn [terms length] in *;
        try (inversion H2 as [|x e l' es' [Hn Hx] Hr]; subst; inversion Hr; subst; cbn [map tot]; rewrite !Rplus_0_r;
             eapply sv_weak; [exact Hx|lra|lia]).
      destruct l as [|x l]; [congruence|]. inversion H2 as [|x' e l' es' [Hn Hx] Hr]; subst. cbn [evaluate fold_left map tot].
      eapply sv_weak; [eapply (sum_sv K l es' Hr _ (fst e) (snd e) K); [|lia]|lra|cbn [length] in H5; lia].
      apply sv_add0. exact Hx. }
    eapply sv_weak; [exact G|exact H4|lia].
  Qed.
  Lemma good_len n f m k : good n f m k -> (length (terms n) <= S k)%nat.
  Proof. intros (K & es & H1 & H2 & -> & H4 & H5). lia. Qed.

  (** **** Sums *)
  Lemma add_outer_terms st a : add_outer (T := F) st a = fold_left add_inner (terms a) st.
  Proof. destruct st as [c args], a; reflexivity. Qed.
  Definition cst (K : nat) (c : F) (cf cm : R) (nc : nat) : Prop :=
    match nc with O => c = flit 0 /\ cf = 0 /\ cm = 0 | S j => sv c cf cm (K + j) end.
  Lemma inner_inv K l es : Forall2 (P K) l es -> forall c args es0 nc cf cm,
    Forall2 (P K) args es0 -> cst K c cf cm nc ->
    exists es1 cf' cm' nc', Forall2 (P K) (snd (fold_left add_inner l (c, args))) es1 /\ cst K (fst (fold_left add_inner l (c, args))) cf' cm' nc' /\
      cf' + tot (map fst es1) = cf + tot (map fst es0) + tot (map fst es) /\
      cm' + tot (map snd es1) = cm + tot (map snd es0) + tot (map snd es) /\
      (length (snd (fold_left add_inner l (c, args))) + nc' = length args + nc + length l)%nat.
  Proof.
    intros Hf. induction Hf as [|x e l es Hx Hf IH]; intros c args es0 nc cf cm Ha Hc.
    - exists es0, cf, cm, nc. cbn. repeat split; auto; lra || lia.
    - assert (Oth : add_inner (c, args) x = (c, args ++ [x]) \/ exists i v, x = NConst i v) by (destruct x; eauto).
      destruct Oth as [Eo|(i & v & ->)].
      + cbn [fold_left]. rewrite Eo. destruct (IH c (args ++ [x]) (es0 ++ [e]) nc cf cm) as (es1 & cf' & cm' & nc' & G1 & G2 & G3 & G4 & G5).
        * apply Forall2_app; [exact Ha|]. constructor; [exact Hx|constructor].
        * exact Hc.
        * exists es1, cf', cm', nc'. rewrite !map_app, !tot_app in *. cbn [map tot] in *. rewrite app_length in G5. cbn [length] in *.
          repeat split; auto; lra || lia.
      + destruct Hx as [_ Hx]. cbn [evaluate] in Hx.
        destruct (IH (nadd c v) args es0 (S nc) (cf + fst e) (cm + snd e)) as (es1 & cf' & cm' & nc' & G1 & G2 & G3 & G4 & G5).
        * exact Ha.
        * destruct nc as [|j]; cbn [cst] in *.
          { destruct Hc as (-> & -> & ->). rewrite !Rplus_0_l, Nat.add_0_r. apply sv_add0. exact Hx. }
          { replace (K + S j)%nat with (S (K + j)) by lia. apply sv_add; [exact Hc|]. eapply sv_weak; [exact Hx|lra|lia]. }
        * exists es1, cf', cm', nc'. cbn [fold_left add_inner length map tot] in *. repeat split; auto; lra || lia.
  Qed.
  Lemma const_notsum i (v : F) : notsum (NConst i v). Proof. exact I. Qed.
  Lemma absorb_first K l es c cf cm j : Forall2 (P K) l es -> l <> [] -> sv c cf cm j -> fin c -> fval c = 0 ->
    exists es', Forall2 (P (Nat.max K j)) l es' /\ tot (map fst es') = cf + tot (map fst es) /\ tot (map snd es') = cm + tot (map snd es).
  Proof.
    intros Hf Hn Sc Hc Ec. destruct Hf as [|x e l es [Nx Hx] Hf]; [congruence|].
    exists ((fst e + cf, snd e + cm) :: es). split; [|cbn; split; lra].
    constructor; [|apply (PF_weak K); [exact Hf|lia]]. split; [exact Nx|]. cbn [fst snd]. eapply sv_absorb; eauto; lia.
  Qed.
  Lemma add_other_good a b f m k g l j n st st' : good a f m k -> good b g l j -> add_other a b st = Ok (n, st') -> good n (f + g) (m + l) (k + j + 1).
  Proof.
    intros (Ka & ea & A1 & A2 & -> & A4 & A5) (Kb & eb & B1 & B2 & -> & B4 & B5) E.
    set (K := Nat.max Ka Kb). assert (Hall : Forall2 (P K) (terms a ++ terms b) (ea ++ eb)).
    { apply Forall2_app; [apply (PF_weak Ka)|apply (PF_weak Kb)]; auto; unfold K; lia. }
    destruct (inner_inv K _ _ Hall (flit 0) [] [] 0 0 0 (Forall2_nil _)) as (es1 & cf & cm & nc & G1 & G2 & G3 & G4 & G5); [cbn; auto|].
    unfold add_other in E. cbn [fold_left] in E. rewrite !add_outer_terms, <- fold_left_app in E.
    change (@n0 F num_f) with (flit 0) in E.
    destruct (fold_left add_inner (terms a ++ terms b) (flit 0, [])) as [c args]. cbn [fst snd] in *.
    rewrite app_length in G5. cbn [length] in G5. rewrite !map_app, !tot_app in G3, G4. cbn [map tot] in G3, G4.
    assert (HK : (K + (length (terms a) + length (terms b)) <= S (k + j + 1))%nat) by (unfold K; lia).
    assert (Hpos : (0 < length (terms a))%nat) by (destruct (terms a); [congruence|cbn; lia]).
    destruct args as [|x args]; cbv beta iota in E.
    - unfold mk_const in E. injection E as <- _. inversion G1; subst es1. destruct nc as [|nc]; [cbn in G5; lia|]. cbn in G3, G4, G5, G2.
      apply sv_good; [exact I|]. cbn [evaluate].
      assert (Q : sv c (tot (map fst ea) + tot (map fst eb)) cm (k + j + 1)).
      { replace (tot (map fst ea) + tot (map fst eb)) with cf by lra. eapply sv_weak; [exact G2|lra|lia]. }
      eapply sv_weak; [exact Q|lra|lia].
    - destruct (neqb c (flit 0)) eqn:Ec; cbn [negb] in E.
      + unfold mk_add in E. destruct (length (x :: args) <? 2)%nat; [discriminate|]. injection E as <- _.
        destruct nc as [|nc]; cbn [cst] in G2.
        * destruct G2 as (_ & -> & ->). exists K, es1. cbn [terms]. repeat split; [discriminate|exact G1|lra|lra|lia].
        * assert (Fc : fin c /\ fval c = 0) by (apply (neqb_fin c 0); [cbn; lia|apply (sv_vb _ _ _ _ G2)|exact Ec]).
          destruct Fc as [Fc Vc]. destruct (absorb_first K _ _ c cf cm _ G1 ltac:(discriminate) G2 Fc Vc) as (es' & Q1 & Q2 & Q3).
          exists (Nat.max K (K + nc)), es'. cbn [terms]. repeat split; [discriminate|exact Q1|lra|lra|lia].
      + apply bind_ok in E as (y & k1 & E1 & E2). unfold mk_const in E1; injection E1 as <- <-.
        unfold mk_add in E2. destruct (length _ <? 2)%nat; [discriminate|]. injection E2 as <- _.
        destruct nc as [|nc]; cbn [cst] in G2.
        { destruct G2 as (-> & _). discriminate Ec. }
        exists (K + nc)%nat, (es1 ++ [(cf, cm)]). cbn [terms]. repeat split; [discriminate| | | |].
        * change (Forall2 (P (K + nc)) ((x :: args) ++ [NConst st c]) (es1 ++ [(cf, cm)])).
          apply Forall2_app; [apply (PF_weak K); [exact G1|lia]|]. constructor; [|constructor]. split; [exact I|exact G2].
        * rewrite map_app, tot_app. cbn [map fst tot]. lra.
        * rewrite map_app, tot_app. cbn [map snd tot]. lra.
        * cbn [length app] in *. rewrite app_length. cbn [length]. lia.
  Qed.
  Lemma const0 n f m k z : (Z.abs z <= 2 ^ 53)%Z -> good n f m k -> is_constant_with_value n (flit z) = true ->
    exists i v, n = NConst i v /\ sv v f m k /\ fin v /\ fval v = IZR z.
  Proof.
    intros Hz Hg E. destruct n as [i v|i s kd|i l|i a|i a b|i a b|i a]; try discriminate E. cbn in E.
    pose proof (good_sv _ _ _ _ Hg) as Hs. cbn [evaluate] in Hs. destruct (neqb_fin v z Hz (sv_vb _ _ _ _ Hs) E) as [H1 H2]. eauto 8.
  Qed.
  Lemma good_absorb n f m k c cf cm j : good n f m k -> sv c cf cm j -> fin c -> fval c = 0 -> good n (f + cf) (m + cm) (k + j).
  Proof.
    intros (K & es & H1 & H2 & -> & H4 & H5) Sc Hc Ec. destruct (absorb_first K _ _ c cf cm j H2 H1 Sc Hc Ec) as (es' & Q1 & Q2 & Q3).
    exists (Nat.max K j), es'. repeat split; [exact H1|exact Q1|lra|lra|]. lia.
  Qed.
  Lemma add_nn_good a b f m k g l j n st st' : good a f m k -> good b g l j -> add_nn a b st = Ok (n, st') -> good n (f + g) (m + l) (k + j + 1).
  Proof.
    intros Ga Gb E. unfold add_nn in E. change (@n0 F num_f) with (flit 0) in E.
    destruct (is_constant_with_value a (flit 0)) eqn:Ea; [|destruct (is_constant_with_value b (flit 0)) eqn:Eb].
    - unfold ret in E. injection E as <- _. destruct (const0 a _ _ _ 0 ltac:(cbn; lia) Ga Ea) as (i & v & -> & Sv & Fv & Vv).
      eapply good_weak; [rewrite (Rplus_comm f); eapply good_absorb; eauto|lra|lia].
    - unfold ret in E. injection E as <- _. destruct (const0 b _ _ _ 0 ltac:(cbn; lia) Gb Eb) as (i & v & -> & Sv & Fv & Vv).
      eapply good_weak; [eapply good_absorb; eauto|lra|lia].
    - eapply add_other_good; eauto.
  Qed.
  Lemma good_const i v : fin v -> good (NConst i v) (fval v) (Rabs (fval v)) 0.
  Proof. intros Hv. apply sv_good; [exact I|]. apply sv_exact. exact Hv. Qed.
  Lemma add_ns_good a v f m k n st st' : good a f m k -> fin v -> add_ns a v st = Ok (n, st') -> good n (f + fval v) (m + Rabs (fval v)) (k + 0 + 1).
  Proof.
    intros Ga Hv E. unfold add_ns in E. change (@n0 F num_f) with (flit 0) in E. destruct (neqb v (flit 0)) eqn:Ev.
    - unfold ret in E. injection E as <- _. destruct (neqb_fin v 0 ltac:(cbn; lia) (proj1 Hv) Ev) as [_ Vv]. eapply good_weak; [eapply good_absorb; [exact Ga|apply (sv_exact v Hv)|exact Hv|exact Vv]|lra|lia].
    - apply bind_ok in E as (x & k1 & E1 & E2). unfold mk_const in E1; injection E1 as <- <-. eapply add_other_good; [exact Ga|apply good_const; exact Hv|exact E2].
  Qed.
  Lemma add_sn_good a v f m k n st st' : good a f m k -> fin v -> add_sn v a st = Ok (n, st') -> good n (fval v + f) (Rabs (fval v) + m) (0 + k + 1).
  Proof.
    intros Ga Hv E. unfold add_sn in E. change (@n0 F num_f) with (flit 0) in E. destruct (neqb v (flit 0)) eqn:Ev.
    - unfold ret in E. injection E as <- _. destruct (neqb_fin v 0 ltac:(cbn; lia) (proj1 Hv) Ev) as [_ Vv].
      rewrite (Rplus_comm (fval v)), (Rplus_comm (Rabs _)). eapply good_weak; [eapply good_absorb; [exact Ga|apply (sv_exact v Hv)|exact Hv|exact Vv]|lra|lia].
    - apply bind_ok in E as (x & k1 & E1 & E2). unfold mk_const in E1; injection E1 as <- <-. eapply add_other_good; [apply good_const; exact Hv|exact Ga|exact E2].
  Qed.

  (** **** Products *)
  Definition many (a b : nat) : R := INR ((a + 1) * (b + 1)) * tiny.
  Lemma many_1 a b : tiny <= many a b.
  Proof.
    unfold many. rewrite <- (Rmult_1_l tiny) at 1. apply Rmult_le_compat_r; [pose proof tiny_pos; lra|].
    change 1 with (INR 1). apply le_INR. nia.
  Qed.
  Lemma many_l a b n : (n <= a + 1)%nat -> INR n * tiny <= many a b.
  Proof. intros Hn. unfold many. apply Rmult_le_compat_r; [pose proof tiny_pos; lra|]. apply le_INR. nia. Qed.
  Lemma many_r a b n : (n <= b + 1)%nat -> INR n * tiny <= many a b.
  Proof. intros Hn. unfold many. apply Rmult_le_compat_r; [pose proof tiny_pos; lra|]. apply le_INR. nia. Qed.

  (** What a factor [s] of value [fs] does to one term. *)
  Definition scaled (fs ms : R) (ks K : nat) (n : node F) (e : R * R) : Prop :=
    notsum n /\ sv (ev n) (fs * fst e) (ms * snd e + tiny) (S (ks + K)).
  Lemma scaled_of fs ms ks K n e m k : notsum n -> sv (ev n) (fs * fst e) m k -> m <= ms * snd e + tiny -> (k <= S (ks + K))%nat -> scaled fs ms ks K n e.
  Proof. intros Hn Hs Hm Hk. split; [exact Hn|]. eapply sv_weak; eauto. Qed.

  Lemma good_one n f m k s fs ms ks : good n f m k -> sv s fs ms ks -> fin s -> fval s = 1 -> good n (fs * f) (ms * m) (ks + k).
  Proof.
    intros (K & es & H1 & H2 & -> & H4 & H5) Ss Hs Es. pose proof (sv_mag _ _ _ _ Ss) as Hms.
    exists (ks + K)%nat, (map (fun e => (fs * fst e, ms * snd e)) es). split; [exact H1|].
    assert (Ef : forall es : list (R * R), tot (map fst (map (fun e => (fs * fst e, ms * snd e)) es)) = fs * tot (map fst es)).
    { intros l0. induction l0 as [|e l0 IH]; cbn [map tot fst]; [lra|]. rewrite IH. lra. }
    assert (Em : forall es : list (R * R), tot (map snd (map (fun e => (fs * fst e, ms * snd e)) es)) = ms * tot (map snd es)).
    { intros l0. induction l0 as [|e l0 IH]; cbn [map tot snd]; [lra|]. rewrite IH. lra. }
    rewrite Ef, Em. split; [|split; [reflexivity|split; [apply Rmult_le_compat_l; assumption|lia]]].
    clear H1 H4 H5. induction H2 as [|x e l es [Nx Hx] Hf IH]; cbn [map]; constructor; auto.
    split; [exact Nx|]. cbn [fst snd]. eapply sv_one; eauto.
  Qed.
  Lemma mapM_rel (Q : node F -> R * R -> Prop) (K : nat) (f : node F -> M (node F)) l es : Forall2 (P K) l es ->
    (forall x e k y k', P K x e -> f x k = Ok (y, k') -> Q y e) ->
    forall k l' k', mapM f l k = Ok (l', k') -> Forall2 Q l' es.
  Proof.
    intros Hf Hq. induction Hf as [|x e l es Hx Hf IH]; intros k l' k' E.
    - injection E as <- _. constructor.
    - apply mapM_cons_ok in E as (y & k1 & ys & E1 & E2 & ->). constructor; eauto.
  Qed.
  Lemma good_scaled i l fs ms ks f m k (fm : node F -> M (node F)) n st st' :
    good (NAdd i l) f m k -> (forall x e K c y c', P K x e -> fm x c = Ok (y, c') -> scaled fs ms ks K y e) -> 0 <= ms ->
    bind (mapM fm l) mk_add st = Ok (n, st') -> good n (fs * f) (ms * m + INR (k + 1) * tiny) (ks + k + 1).
  Proof.
    intros (K & es & H1 & H2 & -> & H4 & H5) Hq Hms E. apply bind_ok in E as (l' & k1 & E1 & E2).
    unfold mk_add in E2. destruct (length l' <? 2)%nat eqn:E3; [discriminate|]. injection E2 as <- _. apply Nat.ltb_ge in E3.
    pose proof (mapM_rel _ K fm l es H2 (fun x e c y c' Hx Hy => Hq x e K c y c' Hx Hy) _ _ _ E1) as G. cbn [terms] in *.
    assert (Ll : length l' = length l).
    { transitivity (length es); [|symmetry]; eapply F2_len; eauto. }
    exists (S (ks + K)), (map (fun e => (fs * fst e, ms * snd e + tiny)) es). cbn [terms]. repeat split.
    - destruct l'; [cbn in E3; lia|discriminate].
    - clear -G. induction G as [|x e l es [Nx Hx] Hf IH]; cbn [map]; constructor; auto. split; auto.
    - clear. induction es as [|e es IH]; cbn [map tot fst]; [lra|]. rewrite <- IH. lra.
    - assert (Em : tot (map snd (map (fun e => (fs * fst e, ms * snd e + tiny)) es)) = ms * tot (map snd es) + INR (length es) * tiny).
      { clear. induction es as [|e es IH]; [cbn; lra|]. cbn [map tot snd]. rewrite IH. cbn [length]. rewrite S_INR. lra. }
      rewrite Em. apply Rplus_le_compat; [apply Rmult_le_compat_l; assumption|]. apply Rmult_le_compat_r; [pose proof tiny_pos; lra|].
      apply le_INR. assert (length l = length es) by (eapply F2_len; eauto). lia.
    - lia.
  Qed.

  (** The common first cases of a product. *)
  Definition head (s r : node F) (rest : M (node F)) : M (node F) :=
    if is_constant_with_value s n0 || is_constant_with_value r n0 then mk_const n0
    else if is_constant_with_value s n1 then ret r
    else if is_constant_with_value r n1 then ret s
    else if is_constant s && is_constant r then mk_const (nmul (evaluate [] s) (evaluate [] r))
    else rest.
  Lemma good_prod n f m k g l j : notsum n -> sv (ev n) (f * g) (m * l + tiny) (S (k + j)) -> good n (f * g) (m * l + many k j) (k + j + 1).
  Proof. intros Hn Hs. apply sv_good; [exact Hn|]. eapply sv_weak; [exact Hs|pose proof (many_1 k j); lra|lia]. Qed.
  Lemma head_good a b f m k g l j rest n st st' : good a f m k -> good b g l j -> head a b rest st = Ok (n, st') ->
    (rest st = Ok (n, st') -> good n (f * g) (m * l + many k j) (k + j + 1)) -> good n (f * g) (m * l + many k j) (k + j + 1).
  Proof.
    intros Ga Gb E Hr. pose proof (good_sv _ _ _ _ Ga) as Sa. pose proof (good_sv _ _ _ _ Gb) as Sb. unfold head in E.
    change (@n0 F num_f) with (flit 0) in E. change (@n1 F num_f) with (flit 1) in E. pose proof (many_1 k j) as Hm. pose proof tiny_pos as Ht.
    destruct (is_constant_with_value a (flit 0)) eqn:Ea0; cbn [orb] in E.
    { unfold mk_const in E. injection E as <- _. destruct (const0 a _ _ _ 0 ltac:(cbn; lia) Ga Ea0) as (i & v & -> & Sv & Fv & Vv).
      apply sv_good; [exact I|]. eapply sv_weak; [eapply sv_zero; eauto|lra|lia]. }
    destruct (is_constant_with_value b (flit 0)) eqn:Eb0.
    { unfold mk_const in E. injection E as <- _. destruct (const0 b _ _ _ 0 ltac:(cbn; lia) Gb Eb0) as (i & v & -> & Sv & Fv & Vv).
      apply sv_good; [exact I|]. rewrite (Rmult_comm f), (Rmult_comm m). eapply sv_weak; [eapply sv_zero; eauto|lra|lia]. }
    destruct (is_constant_with_value a (flit 1)) eqn:Ea1.
    { unfold ret in E. injection E as <- _. destruct (const0 a _ _ _ 1 ltac:(cbn; lia) Ga Ea1) as (i & v & -> & Sv & Fv & Vv).
      eapply good_weak; [eapply good_one; eauto|lra|lia]. }
    destruct (is_constant_with_value b (flit 1)) eqn:Eb1.
    { unfold ret in E. injection E as <- _. destruct (const0 b _ _ _ 1 ltac:(cbn; lia) Gb Eb1) as (i & v & -> & Sv & Fv & Vv).
      rewrite (Rmult_comm f), (Rmult_comm m). eapply good_weak; [eapply good_one; eauto|lra|lia]. }
    destruct (is_constant a && is_constant b) eqn:Ec; [|auto].
    apply andb_true_iff in Ec as [Ca Cb]. destruct a as [i v|i s kd|i ar|i x|i x y|i x y|i x]; try discriminate Ca.
    destruct b as [i' w|i' s kd|i' ar|i' x|i' x y|i' x y|i' x]; try discriminate Cb.
    unfold mk_const in E. injection E as <- _. apply good_prod; [exact I|]. cbn [evaluate] in *. apply sv_mul; assumption.
  Qed.
  Lemma head_scaled s f m k x e K rest n st st' : is_constant s = true -> sv (ev s) f m k -> P K x e -> head s x rest st = Ok (n, st') ->
    (rest st = Ok (n, st') -> mk_mul s x st = Ok (n, st')) -> scaled f m k K n e.
  Proof.
    intros Cs Ss [Nx Sx] E Hr. destruct s as [i v|i sn kd|i ar|i y|i y z|i y z|i y]; try discriminate Cs. clear Cs. cbn [evaluate] in Ss. unfold head in E.
    change (@n0 F num_f) with (flit 0) in E. change (@n1 F num_f) with (flit 1) in E. pose proof tiny_pos as Ht.
    assert (Gx : good x (fst e) (snd e) K) by (apply sv_good; assumption). assert (Gs : good (NConst i v) f m k) by (apply sv_good; [exact I|exact Ss]).
    destruct (is_constant_with_value (NConst i v) (flit 0)) eqn:Ea0; cbn [orb] in E.
    { unfold mk_const in E. injection E as <- _. destruct (const0 _ _ _ _ 0 ltac:(cbn; lia) Gs Ea0) as (i' & v' & Ev & Sv & Fv & Vv).
      eapply scaled_of; [exact I|cbn [evaluate]; eapply sv_zero; eauto|lra|lia]. }
    destruct (is_constant_with_value x (flit 0)) eqn:Eb0.
    { unfold mk_const in E. injection E as <- _. destruct (const0 x _ _ _ 0 ltac:(cbn; lia) Gx Eb0) as (i' & v' & -> & Sv & Fv & Vv).
      eapply scaled_of; [exact I|cbn [evaluate]; rewrite (Rmult_comm f); eapply sv_zero; eauto|rewrite Rmult_comm; lra|lia]. }
    destruct (is_constant_with_value (NConst i v) (flit 1)) eqn:Ea1.
    { unfold ret in E. injection E as <- _. destruct (const0 _ _ _ _ 1 ltac:(cbn; lia) Gs Ea1) as (i' & v' & Ev & Sv & Fv & Vv).
      eapply scaled_of; [exact Nx|eapply sv_one; [exact Sv|exact Fv|exact Vv|exact Sx]|lra|lia]. }
    destruct (is_constant_with_value x (flit 1)) eqn:Eb1.
    { unfold ret in E. injection E as <- _. destruct (const0 x _ _ _ 1 ltac:(cbn; lia) Gx Eb1) as (i' & v' & -> & Sv & Fv & Vv).
      eapply scaled_of; [exact I|cbn [evaluate]; rewrite (Rmult_comm f); eapply sv_one; eauto|rewrite Rmult_comm; lra|lia]. }
    destruct (is_constant (NConst i v) && is_constant x) eqn:Ec.
    - apply andb_true_iff in Ec as [_ Cb]. destruct x as [i' w|i' s kd|i' ar|i' x|i' x y|i' x y|i' x]; try discriminate Cb.
      unfold mk_const in E. injection E as <- _. split; [exact I|]. cbn [evaluate] in *. apply sv_mul; assumption.
    - specialize (Hr E). unfold mk_mul in Hr. injection Hr as <- _. split; [exact I|]. cbn [evaluate]. apply sv_mul; assumption.
  Qed.
  Lemma head_scaled_r s f m k x e K rest n st st' : is_constant s = true -> sv (ev s) f m k -> P K x e -> head x s rest st = Ok (n, st') ->
    (rest st = Ok (n, st') -> mk_mul x s st = Ok (n, st')) -> scaled f m k K n e.
  Proof.
    intros Cs Ss [Nx Sx] E Hr. destruct s as [i v|i sn kd|i ar|i y|i y z|i y z|i y]; try discriminate Cs. clear Cs. cbn [evaluate] in Ss. unfold head in E.
    change (@n0 F num_f) with (flit 0) in E. change (@n1 F num_f) with (flit 1) in E. pose proof tiny_pos as Ht.
    assert (Gx : good x (fst e) (snd e) K) by (apply sv_good; assumption). assert (Gs : good (NConst i v) f m k) by (apply sv_good; [exact I|exact Ss]).
    destruct (is_constant_with_value x (flit 0)) eqn:Eb0; cbn [orb] in E.
    { unfold mk_const in E. injection E as <- _. destruct (const0 x _ _ _ 0 ltac:(cbn; lia) Gx Eb0) as (i' & v' & -> & Sv & Fv & Vv).
      eapply scaled_of; [exact I|cbn [evaluate]; rewrite (Rmult_comm f); eapply sv_zero; eauto|rewrite Rmult_comm; lra|lia]. }
    destruct (is_constant_with_value (NConst i v) (flit 0)) eqn:Ea0.
    { unfold mk_const in E. injection E as <- _. destruct (const0 _ _ _ _ 0 ltac:(cbn; lia) Gs Ea0) as (i' & v' & Ev & Sv & Fv & Vv).
      eapply scaled_of; [exact I|cbn [evaluate]; eapply sv_zero; eauto|lra|lia]. }
    destruct (is_constant_with_value x (flit 1)) eqn:Eb1.
    { unfold ret in E. injection E as <- _. destruct (const0 x _ _ _ 1 ltac:(cbn; lia) Gx Eb1) as (i' & v' & -> & Sv & Fv & Vv).
      eapply scaled_of; [exact I|cbn [evaluate]; rewrite (Rmult_comm f); eapply sv_one; eauto|rewrite Rmult_comm; lra|lia]. }
    destruct (is_constant_with_value (NConst i v) (flit 1)) eqn:Ea1.
    { unfold ret in E. injection E as <- _. destruct (const0 _ _ _ _ 1 ltac:(cbn; lia) Gs Ea1) as (i' & v' & Ev & Sv & Fv & Vv).
      eapply scaled_of; [exact Nx|eapply sv_one; [exact Sv|exact Fv|exact Vv|exact Sx]|lra|lia]. }
    destruct (is_constant x && is_constant (NConst i v)) eqn:Ec.
    - apply andb_true_iff in Ec as [Cb _]. destruct x as [i' w|i' s kd|i' ar|i' x|i' x y|i' x y|i' x]; try discriminate Cb.
      unfold mk_const in E. injection E as <- _. cbn [evaluate] in *.
      eapply scaled_of; [exact I|cbn [evaluate]; rewrite (Rmult_comm f); apply sv_mul; eassumption|rewrite Rmult_comm; lra|lia].
    - specialize (Hr E). unfold mk_mul in Hr. injection Hr as <- _.
      eapply scaled_of; [exact I|cbn [evaluate]; rewrite (Rmult_comm f); apply sv_mul; eassumption|rewrite Rmult_comm; lra|lia].
  Qed.
  Lemma mul_nn_good a b f m k g l j n st st' : good a f m k -> good b g l j -> mul_nn a b st = Ok (n, st') -> good n (f * g) (m * l + many k j) (k + j + 1).
  Proof.
    intros Ga Gb E. pose proof (good_sv _ _ _ _ Ga) as Sa. pose proof (good_sv _ _ _ _ Gb) as Sb.
    unfold mul_nn in E. eapply head_good; [exact Ga|exact Gb|exact E|]. clear E. intros E.
    assert (Mul : mk_mul a b st = Ok (n, st') -> good n (f * g) (m * l + many k j) (k + j + 1)).
    { intros Em. unfold mk_mul in Em. injection Em as <- _. apply good_prod; [exact I|]. cbn [evaluate]. apply sv_mul; assumption. }
    destruct a as [i v|i sn kd|i ar|i x|i x y|i x y|i x]; try exact (Mul E);
      destruct b as [i' w|i' sn' kd'|i' ar'|i' x'|i' x' y'|i' x' y'|i' x']; try exact (Mul E).
    - eapply good_weak; [eapply (good_scaled i' ar' f m k g l j); [exact Gb| |exact (sv_mag _ _ _ _ Sa)|exact E]| |lia].
      + intros x e K c y c' Px Ey. destruct x as [i0 v0|i0 s0 kd0|i0 l0|i0 a0|i0 a0 b0|i0 a0 b0|i0 a0]; try (destruct Px as [[] _]; fail);
          (eapply (head_scaled (NConst i v)); [reflexivity|exact Sa|exact Px|exact Ey|intros Hr; exact Hr]).
      + apply Rplus_le_compat_l. apply many_r. lia.
    - rewrite (Rmult_comm f), (Rmult_comm m). eapply good_weak; [eapply (good_scaled i ar g l j f m k); [exact Ga| |exact (sv_mag _ _ _ _ Sb)|exact E]| |lia].
      + intros x e K c y c' Px Ey. destruct x as [i0 v0|i0 s0 kd0|i0 l0|i0 a0|i0 a0 b0|i0 a0 b0|i0 a0]; try (destruct Px as [[] _]; fail);
          (eapply (head_scaled_r (NConst i' w)); [reflexivity|exact Sb|exact Px|exact Ey|intros Hr; exact Hr]).
      + apply Rplus_le_compat_l. apply many_l. lia.
  Qed.
  (** With a scalar. *)
  Lemma ns_scaled v x e K n st st' : fin v -> P K x e -> mul_ns x v st = Ok (n, st') -> scaled (fval v) (Rabs (fval v)) 0 K n e.
  Proof.
    intros Hv [Nx Sx] E. pose proof tiny_pos as Ht. pose proof (sv_exact v Hv) as Sv.
    assert (Mul : (c <- mk_const v ;; mk_mul x c)%m st = Ok (n, st') -> scaled (fval v) (Rabs (fval v)) 0 K n e).
    { intros Em. injection Em as <- _. eapply scaled_of; [exact I|cbn [evaluate]; rewrite (Rmult_comm (fval v)); apply sv_mul; eassumption|rewrite Rmult_comm; lra|lia]. }
    assert (Zero : neqb v (flit 0) = true -> n = NConst st (flit 0) -> scaled (fval v) (Rabs (fval v)) 0 K n e).
    { intros E0 ->. destruct (neqb_fin v 0 ltac:(cbn; lia) (proj1 Hv) E0) as [_ V0].
      eapply scaled_of; [exact I|cbn [evaluate]; eapply sv_zero; eauto|lra|lia]. }
    assert (One : neqb v (flit 1) = true -> n = x -> scaled (fval v) (Rabs (fval v)) 0 K n e).
    { intros E0 ->. destruct (neqb_fin v 1 ltac:(cbn; lia) (proj1 Hv) E0) as [_ V0].
      eapply scaled_of; [exact Nx|eapply (sv_one v); eauto|lra|lia]. }
    destruct x as [i w|i sn kd|i ar|i y|i y z|i y z|i y]; try (destruct Nx; fail); cbn [mul_ns is_constant orb is_constant_with_value] in E.
    { injection E as <- _. eapply scaled_of; [exact I|cbn [evaluate]; rewrite (Rmult_comm (fval v)); apply sv_mul; eassumption|rewrite Rmult_comm; lra|lia]. }
    all: change (@n0 F num_f) with (flit 0) in E; change (@n1 F num_f) with (flit 1) in E;
      destruct (neqb v (flit 0)) eqn:E0; [injection E as <- _; auto|]; destruct (neqb v (flit 1)) eqn:E1; [injection E as <- _; auto|]; auto.
  Qed.
  Lemma sn_scaled v x e K n st st' : fin v -> P K x e -> mul_sn v x st = Ok (n, st') -> scaled (fval v) (Rabs (fval v)) 0 K n e.
  Proof.
    intros Hv [Nx Sx] E. pose proof tiny_pos as Ht. pose proof (sv_exact v Hv) as Sv.
    assert (Mul : (c <- mk_const v ;; mk_mul c x)%m st = Ok (n, st') -> scaled (fval v) (Rabs (fval v)) 0 K n e).
    { intros Em. injection Em as <- _. eapply scaled_of; [exact I|cbn [evaluate]; apply sv_mul; eassumption|lra|lia]. }
    assert (Zero : neqb v (flit 0) = true -> n = NConst st (flit 0) -> scaled (fval v) (Rabs (fval v)) 0 K n e).
    { intros E0 ->. destruct (neqb_fin v 0 ltac:(cbn; lia) (proj1 Hv) E0) as [_ V0].
      eapply scaled_of; [exact I|cbn [evaluate]; eapply sv_zero; eauto|lra|lia]. }
    assert (One : neqb v (flit 1) = true -> n = x -> scaled (fval v) (Rabs (fval v)) 0 K n e).
    { intros E0 ->. destruct (neqb_fin v 1 ltac:(cbn; lia) (proj1 Hv) E0) as [_ V0].
      eapply scaled_of; [exact Nx|eapply (sv_one v); eauto|lra|lia]. }
    destruct x as [i w|i sn kd|i ar|i y|i y z|i y z|i y]; try (destruct Nx; fail); cbn [mul_sn is_constant is_constant_with_value] in E.
    { rewrite orb_true_r in E. injection E as <- _. eapply scaled_of; [exact I|cbn [evaluate]; apply sv_mul; eassumption|lra|lia]. }
    all: change (@n0 F num_f) with (flit 0) in E; change (@n1 F num_f) with (flit 1) in E; rewrite orb_false_r in E;
      destruct (neqb v (flit 0)) eqn:E0; [injection E as <- _; auto|]; destruct (neqb v (flit 1)) eqn:E1; [injection E as <- _; auto|]; auto.
  Qed.
  Lemma single n f m k : good n f m k -> notsum n -> exists K, P K n (f, m) /\ (K <= k)%nat.
  Proof. intros G Hn. exists k. split; [|lia]. split; [exact Hn|apply good_sv; exact G]. Qed.
  Lemma scaled_good v K k f m n : (K <= k)%nat -> scaled (fval v) (Rabs (fval v)) 0 K n (f, m) ->
    good n (fval v * f) (Rabs (fval v) * m + INR (k + 1) * tiny) (0 + k + 1).
  Proof.
    intros HK [Hn Hs]. apply sv_good; [exact Hn|]. cbn [fst snd] in Hs. eapply sv_weak; [exact Hs| |lia].
    apply Rplus_le_compat_l. rewrite <- (Rmult_1_l tiny) at 1. apply Rmult_le_compat_r; [pose proof tiny_pos; lra|]. change 1 with (INR 1). apply le_INR. lia.
  Qed.
  Lemma scalar_good (fm : node F -> M (node F)) v a f m k n st st' :
    fin v -> good a f m k -> (forall x e K c y c', P K x e -> fm x c = Ok (y, c') -> scaled (fval v) (Rabs (fval v)) 0 K y e) ->
    (forall i l c y c', fm (NAdd i l) c = Ok (y, c') ->
       (neqb v (flit 0) = true /\ y = NConst c (flit 0)) \/ (neqb v (flit 1) = true /\ y = NAdd i l) \/ bind (mapM fm l) mk_add c = Ok (y, c')) ->
    fm a st = Ok (n, st') -> good n (fval v * f) (Rabs (fval v) * m + INR (k + 1) * tiny) (0 + k + 1).
  Proof.
    intros Hv Ga Ht Hs E. assert (Hn : notsum a \/ exists i l, a = NAdd i l) by (destruct a; cbn; eauto).
    destruct Hn as [Hn|(i & l & ->)].
    - destruct (single _ _ _ _ Ga Hn) as (K & PK & HK). eapply scaled_good; [exact HK|]. eapply Ht; eauto.
    - pose proof tiny_pos. pose proof (pos_INR (k + 1)) as Hi. pose proof (good_sv _ _ _ _ Ga) as Sa. pose proof (sv_mag _ _ _ _ Sa).
      assert (Hp : 0 <= INR (k + 1) * tiny) by (apply Rmult_le_pos; lra).
      destruct (Hs _ _ _ _ _ E) as [(E0 & ->)|[(E1 & ->)|Em]].
      + destruct (neqb_fin v 0 ltac:(cbn; lia) (proj1 Hv) E0) as [_ V0]. apply sv_good; [exact I|].
        cbn [evaluate]. eapply sv_weak; [eapply (sv_zero v); [apply (sv_exact v Hv)|exact Hv|exact V0|exact Sa]|lra|lia].
      + destruct (neqb_fin v 1 ltac:(cbn; lia) (proj1 Hv) E1) as [_ V1].
        eapply good_weak; [eapply good_one; [exact Ga|apply (sv_exact v Hv)|exact Hv|exact V1]|lra|lia].
      + eapply good_weak; [eapply (good_scaled i l (fval v) (Rabs (fval v)) 0 f m k fm); [exact Ga| |apply Rabs_pos|exact Em]|apply Rle_refl|lia]. exact Ht.
  Qed.
  Lemma mul_ns_good v a f m k n st st' : fin v -> good a f m k -> mul_ns a v st = Ok (n, st') ->
    good n (f * fval v) (m * Rabs (fval v) + many k 0) (k + 0 + 1).
  Proof.
    intros Hv Ga E. rewrite (Rmult_comm f), (Rmult_comm m). eapply good_weak; [eapply (scalar_good (fun x => mul_ns x v)); [exact Hv|exact Ga| | |exact E]| |lia].
    - intros x e K c y c' Px Ey. eapply ns_scaled; eauto.
    - intros i l c y c' Ey. cbn [mul_ns is_constant orb is_constant_with_value] in Ey.
      change (@n0 F num_f) with (flit 0) in Ey. change (@n1 F num_f) with (flit 1) in Ey.
      destruct (neqb v (flit 0)); [injection Ey as <- _; auto|]. destruct (neqb v (flit 1)); [injection Ey as <- _; auto|]. auto.
    - apply Rplus_le_compat_l. apply many_l. lia.
  Qed.
  Lemma mul_sn_good v a f m k n st st' : fin v -> good a f m k -> mul_sn v a st = Ok (n, st') ->
    good n (fval v * f) (Rabs (fval v) * m + many 0 k) (0 + k + 1).
  Proof.
    intros Hv Ga E. eapply good_weak; [eapply (scalar_good (fun x => mul_sn v x)); [exact Hv|exact Ga| | |exact E]| |lia].
    - intros x e K c y c' Px Ey. eapply sn_scaled; eauto.
    - intros i l c y c' Ey. cbn [mul_sn is_constant is_constant_with_value] in Ey. rewrite orb_false_r in Ey.
      change (@n0 F num_f) with (flit 0) in Ey. change (@n1 F num_f) with (flit 1) in Ey.
      destruct (neqb v (flit 0)); [injection Ey as <- _; auto|]. destruct (neqb v (flit 1)); [injection Ey as <- _; auto|]. auto.
    - apply Rplus_le_compat_l. apply many_r. lia.
  Qed.
  (** Negation and differences. *)
  Lemma m1_not : neqb (@nm1 F num_f) n0 = false /\ neqb (@nm1 F num_f) n1 = false.
  Proof. split; reflexivity. Qed.
  Lemma neg_term x e K n st st' : P K x e -> mul_sn nm1 x st = Ok (n, st') -> P K n (- fst e, snd e).
  Proof.
    intros [Nx Sx] E. destruct x as [i w|i sn kd|i ar|i y|i y z|i y z|i y]; try (destruct Nx; fail); cbn [mul_sn is_constant is_constant_with_value] in E.
    { rewrite orb_true_r in E. injection E as <- _. split; [exact I|]. cbn [evaluate fst snd] in *. apply sv_neg. exact Sx. }
    all: destruct m1_not as [M0 M1]; rewrite M0, M1 in E; cbn [orb] in E; injection E as <- _; split; [exact I|];
      cbn [fst snd]; exact (sv_neg _ _ _ _ Sx).
  Qed.
  Lemma neg_good a f m k n st st' : good a f m k -> mul_sn nm1 a st = Ok (n, st') -> good n (- f) m k.
  Proof.
    intros Ga E. assert (Hn : notsum a \/ exists i l, a = NAdd i l) by (destruct a; cbn; eauto).
    destruct Hn as [Hn|(i & l & ->)].
    - destruct (single _ _ _ _ Ga Hn) as (K & PK & HK). destruct (neg_term _ _ _ _ _ _ PK E) as [Nn Sn]. apply sv_good; [exact Nn|].
      eapply sv_weak; [exact Sn|apply Rle_refl|exact HK].
    - cbn [mul_sn is_constant is_constant_with_value] in E. destruct m1_not as [M0 M1]. rewrite M0, M1 in E. cbn [orb] in E.
      apply bind_ok in E as (l' & k1 & E1 & E2). unfold mk_add in E2. destruct (length l' <? 2)%nat eqn:E3; [discriminate|]. injection E2 as <- _. apply Nat.ltb_ge in E3.
      destruct Ga as (K & es & H1 & H2 & -> & H4 & H5). cbn [terms] in *.
      pose proof (mapM_rel (fun y e => P K y (- fst e, snd e)) K _ l es H2 (fun x e c y c' Hx Hy => neg_term x e K y c c' Hx Hy) _ _ _ E1) as G.
      exists K, (map (fun e => (- fst e, snd e)) es). cbn [terms]. repeat split.
      + destruct l'; [cbn in E3; lia|discriminate].
      + clear -G. induction G as [|x e l es Hx Hf IH]; cbn [map]; constructor; auto.
      + clear. induction es as [|e es IH]; cbn [map tot fst]; [lra|]. rewrite <- IH. lra.
      + rewrite map_map. cbn [snd]. exact H4.
      + rewrite (F2_len _ _ _ G), <- (F2_len _ _ _ H2). exact H5.
  Qed.
  Lemma neg_n_good a f m k n st st' : good a f m k -> neg_n a st = Ok (n, st') -> good n (- f) m k.
  Proof.
    intros Ga E. destruct a as [i w|i sn kd|i ar|i y|i y z|i y z|i y]; try (eapply neg_good; [exact Ga|exact E]).
  Qed.
  Lemma sub_nn_good a b f m k g l j n st st' : good a f m k -> good b g l j -> sub_nn a b st = Ok (n, st') -> good n (f - g) (m + l) (k + j + 1).
  Proof. intros Ga Gb E. apply bind_ok in E as (x & k1 & E1 & E2). eapply add_nn_good; [exact Ga|eapply neg_good; [exact Gb|exact E1]|exact E2]. Qed.
  Lemma sub_ns_good a v f m k n st st' : good a f m k -> fin v -> sub_ns a v st = Ok (n, st') -> good n (f - fval v) (m + Rabs (fval v)) (k + 0 + 1).
  Proof.
    intros Ga Hv E. apply bind_ok in E as (c & k0 & E0 & E). unfold mk_const in E0. injection E0 as <- <-.
    apply bind_ok in E as (x & k1 & E1 & E2). eapply add_nn_good; [exact Ga|eapply neg_good; [apply good_const; exact Hv|exact E1]|exact E2].
  Qed.
  Lemma sub_sn_good a v f m k n st st' : good a f m k -> fin v -> sub_sn v a st = Ok (n, st') -> good n (fval v - f) (Rabs (fval v) + m) (0 + k + 1).
  Proof.
    intros Ga Hv E. apply bind_ok in E as (c & k0 & E0 & E). unfold mk_const in E0. injection E0 as <- <-.
    apply bind_ok in E as (x & k1 & E1 & E2). eapply add_nn_good; [apply good_const; exact Hv|eapply neg_good; [exact Ga|exact E1]|exact E2].
  Qed.
  Lemma div_ns_good a v f m k n st st' : good a f m k -> fin v -> div_ns a v st = Ok (n, st') -> good n (f / fval v) (m / Rabs (fval v) + tiny) (k + 1).
  Proof.
    intros Ga Hv E. unfold div_ns in E. change (@n0 F num_f) with (flit 0) in E. change (@n1 F num_f) with (flit 1) in E. pose proof tiny_pos.
    pose proof (good_sv _ _ _ _ Ga) as Sa. pose proof (sv_mag _ _ _ _ Sa) as Hm.
    destruct (neqb v (flit 0)) eqn:E0; [discriminate|].
    assert (Nv : fval v <> 0).
    { intros Z. change (SFeqb v (flit 0) = false) in E0. rewrite (feqb_fin v _ Hv fin_flit0) in E0. rewrite Z, fval_flit0 in E0.
      destruct (Req_bool_spec 0 0); [discriminate|congruence]. }
    destruct (neqb v (flit 1)) eqn:E1.
    { unfold ret in E. injection E as <- _. destruct (neqb_fin v 1 ltac:(cbn; lia) (proj1 Hv) E1) as [_ V1]. rewrite V1, Rabs_R1.
      unfold Rdiv. rewrite Rinv_1, !Rmult_1_r. eapply good_weak; [exact Ga|lra|lia]. }
    destruct (is_constant_with_value a (flit 0)) eqn:Ea.
    { unfold mk_const in E. injection E as <- _. destruct (const0 a _ _ _ 0 ltac:(cbn; lia) Ga Ea) as (i & w & -> & Sw & Fw & Vw).
      pose proof (sv_div w f m k v Sw Hv Nv) as [_ Aq _]. apply sv_good; [exact I|]. cbn [evaluate]. constructor; [apply fin_flit0|exact Aq|].
      intros _. enough (Hz : forall c, fval c = 0 -> Rabs (fval c - f / fval v) <= gam (k + 1) * (m / Rabs (fval v) + tiny)) by (apply Hz; reflexivity).
      intros c ->. destruct Sw as [_ _ Er]. specialize (Er Fw). rewrite Vw in Er.
      replace (0 - f / fval v) with ((0 - f) / fval v) by (field; exact Nv). unfold Rdiv. rewrite Rabs_mult, Rabs_inv.
      assert (Hp : 0 < / Rabs (fval v)) by (apply Rinv_0_lt_compat, Rabs_pos_lt; exact Nv).
      apply Rle_trans with (gam k * m * / Rabs (fval v)); [apply Rmult_le_compat_r; lra|]. rewrite Rmult_assoc.
      assert (Hq : 0 <= m * / Rabs (fval v)) by (apply Rmult_le_pos; lra).
      apply Rmult_le_compat; [apply gam_pos|exact Hq|apply gam_mono; lia|lra]. }
    destruct (is_constant a) eqn:Ca.
    - destruct a as [i w|i sn kd|i ar|i y|i y z|i y z|i y]; try discriminate Ca. unfold mk_const in E. injection E as <- _. cbn [evaluate] in *.
      apply sv_good; [exact I|]. cbn [evaluate]. rewrite Nat.add_1_r. apply sv_div; assumption.
    - apply bind_ok in E as (c & k0 & E2 & E). unfold mk_const in E2. injection E2 as <- <-. unfold mk_div in E. injection E as <- _.
      apply sv_good; [exact I|]. cbn [evaluate]. rewrite Nat.add_1_r. apply sv_div; assumption.
  Qed.
End Expr.
