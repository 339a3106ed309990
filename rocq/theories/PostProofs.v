(** Sums over the entries of a row against sums over the cells. *)
From Verif Require Import Base CoefSpec Properties_Coef.
From Coq Require Import Reals Lra Lia List.
Local Open Scope R_scope.

(** Entries: cell, coefficient, number. *)
Definition esum (L : list (nat * R * R)) : R := fold_right Rplus 0 (map (fun q => snd (fst q) * snd q) L).
Definition coef_at (L : list (nat * R * R)) (c : nat) : R :=
  fold_right Rplus 0 (map (fun q => if Nat.eqb c (fst (fst q)) then snd (fst q) else 0) L).

Lemma esum_cells N r L :
  (forall c a y, In (c, a, y) L -> ((c < N)%nat /\ y = r c) \/ a = 0) ->
  esum L = cells N (fun c => coef_at L c * r c).
Proof.
  induction L as [|[[c a] y] L IH]; intros HL; cbn [esum coef_at map fold_right fst snd].
  - symmetry. apply cells_0. intros; ring.
  - fold (esum L). rewrite IH by (intros; apply HL; cbn; auto).
    rewrite (cells_ext N (fun c0 => ((if Nat.eqb c0 c then a else 0) + fold_right Rplus 0 (map (fun q => if Nat.eqb c0 (fst (fst q)) then snd (fst q) else 0) L)) * r c0)
               (fun c0 => a * ((if Nat.eqb c0 c then 1 else 0) * r c0) + coef_at L c0 * r c0)).
    2:{ intros c0. fold (coef_at L c0). destruct (Nat.eqb c0 c); ring. }
    rewrite cells_plus, cells_scal. destruct (HL c a y (or_introl eq_refl)) as [[Hc ->]| ->].
    + rewrite cells_one by exact Hc. reflexivity.
    + ring.
Qed.
Lemma coef_at_none L c : (forall a y, ~ In (c, a, y) L) -> coef_at L c = 0.
Proof.
  induction L as [|[[c0 a] y] L IH]; intros HL; [reflexivity|]. cbn. fold (coef_at L c). rewrite IH by (intros a' y' Hin; apply (HL a' y'); cbn; auto).
  destruct (Nat.eqb_spec c c0) as [->|]; [|ring]. exfalso. apply (HL a y). cbn. auto.
Qed.
Lemma coef_at_one L c a y : NoDup (map (fun q => fst (fst q)) L) -> In (c, a, y) L -> coef_at L c = a.
Proof.
  induction L as [|[[c0 a0] y0] L IH]; intros Hn Hin; [destruct Hin|]. cbn in Hn. apply NoDup_cons_iff in Hn as [Hc Hn].
  cbn. fold (coef_at L c). destruct Hin as [Hin|Hin].
  - injection Hin as -> -> ->. rewrite Nat.eqb_refl, coef_at_none; [ring|].
    intros a' y' Hin. apply Hc. apply (in_map (fun q => fst (fst q))) in Hin. exact Hin.
  - rewrite (IH Hn Hin). destruct (Nat.eqb_spec c c0) as [->|]; [|ring]. exfalso. apply Hc.
    apply (in_map (fun q => fst (fst q))) in Hin. exact Hin.
Qed.
Lemma cells_le n f g : (forall c, (c < n)%nat -> f c <= g c) -> cells n f <= cells n g.
Proof. induction n as [|n IH]; intros Hfg; cbn; [lra|]. pose proof (Hfg n ltac:(lia)). specialize (IH ltac:(intros; apply Hfg; lia)). lra. Qed.
Lemma cells_abs n f : Rabs (cells n f) <= cells n (fun c => Rabs (f c)).
Proof. induction n as [|n IH]; cbn; [rewrite Rabs_R0; lra|]. pose proof (Rabs_triang (cells n f) (f n)). lra. Qed.

(** If the coefficients of the list are close to those of a linear function, so are the sums. *)
Lemma esum_close N r L coef err :
  NoDup (map (fun q => fst (fst q)) L) ->
  (forall c a y, In (c, a, y) L -> ((c < N)%nat /\ y = r c) \/ a = 0) ->
  (forall c a y, (c < N)%nat -> In (c, a, y) L -> Rabs (a - coef c) <= err c) ->
  (forall c, (c < N)%nat -> (forall a y, ~ In (c, a, y) L) -> Rabs (0 - coef c) <= err c) ->
  Rabs (esum L - cells N (fun c => coef c * r c)) <= cells N (fun c => err c * Rabs (r c)).
Proof.
  intros Hn HL H1 H0. rewrite (esum_cells N r L HL).
  assert (Hc : forall c, (c < N)%nat -> Rabs (coef_at L c - coef c) <= err c).
  { intros c Hc. destruct (in_dec Nat.eq_dec c (map (fun q => fst (fst q)) L)) as [Hin|Hin].
    - apply in_map_iff in Hin as ([[c0 a] y] & E & Hin). cbn in E. subst c0. rewrite (coef_at_one L c a y Hn Hin). exact (H1 c a y Hc Hin).
    - assert (Hno : forall a y, ~ In (c, a, y) L).
      { intros a y Hin'. apply Hin. apply (in_map (fun q => fst (fst q))) in Hin'. exact Hin'. }
      rewrite (coef_at_none L c Hno). exact (H0 c Hc Hno). }
  replace (cells N (fun c => coef_at L c * r c) - cells N (fun c => coef c * r c)) with (cells N (fun c => (coef_at L c - coef c) * r c)).
  2:{ replace (cells N (fun c => coef_at L c * r c) - cells N (fun c => coef c * r c))
        with (cells N (fun c => coef_at L c * r c) + (-1) * cells N (fun c => coef c * r c)) by ring.
      rewrite <- cells_scal, <- cells_plus. apply cells_ext. intros; ring. }
  eapply Rle_trans; [apply cells_abs|]. apply cells_le. intros c Hcn. rewrite Rabs_mult.
  apply Rmult_le_compat_r; [apply Rabs_pos|]. exact (Hc c Hcn).
Qed.
