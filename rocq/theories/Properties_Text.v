(** Property C59: texts mean what their grammar says. *)
From Verif Require Import Base Text TextProofs FmtProofs FloatProofs Num Problem ModelStd LpFile SolFile SolSpec TextSpec Properties_Num Properties_Sol.
From Coq Require Import NArith Reals Lra Floats.SpecFloat.
From Flocq Require Import Core BinarySingleNaN.
Local Open Scope string_scope.
Local Open Scope list_scope.

(** ** Characters *)
Lemma code_inj a b : code a = code b -> a = b.
Proof. unfold code. intros E. rewrite <- (ascii_N_embedding a), <- (ascii_N_embedding b), E. reflexivity. Qed.
Lemma eqb_code c d : (c =? d)%char = (code c =? code d)%N.
Proof.
  destruct (Ascii.eqb_spec c d) as [->|Hn]; symmetry; [apply N.eqb_refl|]. apply N.eqb_neq. intros E. apply Hn, code_inj, E.
Qed.
Lemma is_ws_blank c : is_ws c = true <-> blank c.
Proof.
  unfold is_ws, blank. rewrite !eqb_code. change (code " ") with 32%N. change (code "009") with 9%N. change (code nl) with 10%N.
  change (code "012") with 12%N. change (code "013") with 13%N. rewrite !orb_true_iff, !N.eqb_eq. cbn [In].
  intuition congruence.
Qed.
Lemma code_lt c : (code c < 256)%N.
Proof. unfold code. apply N_ascii_bounded. Qed.

Lemma free_all (p : ascii -> bool) (P : ascii -> Prop) s : (forall c, p c = false <-> P c) -> free p s = true <-> all_chars P s.
Proof.
  intros Hp. unfold all_chars. induction s as [|c s IH]; cbn; [split; auto; constructor|].
  rewrite andb_true_iff, negb_true_iff, Hp, IH. split; [intros []; constructor; auto|]. intros Hf; inversion Hf; auto.
Qed.
Lemma no_ws_all s : no_ws s = true <-> all_chars (fun c => ~ blank c) s.
Proof. apply free_all. intros c. rewrite <- is_ws_blank. destruct (is_ws c); split; congruence. Qed.
Lemma all_app P a b : all_chars P (a ++ b)%string <-> all_chars P a /\ all_chars P b.
Proof.
  unfold all_chars. induction a as [|c a IH]; cbn; [split; [intros; split; [constructor|auto]|tauto]|].
  split; [intros Hf; inversion Hf; subst; apply IH in H2 as []; split; auto; constructor; auto|].
  intros [Ha Hb]. inversion Ha; subst. constructor; auto. apply IH. auto.
Qed.

(** ** Words *)
Lemma words_skip g s : all_chars blank g -> words (g ++ s)%string = words s.
Proof.
  unfold all_chars. induction g as [|c g IH]; cbn [append list_ascii_of_string]; intros Hg; [reflexivity|]. inversion Hg; subst.
  rewrite words_ws by (apply is_ws_blank; auto). auto.
Qed.
Lemma made_words s ws : made_of s ws -> words s = ws.
Proof.
  induction 1 as [g Hg|g w s ws Hg Hw Hs IH Hn].
  - rewrite <- (app_nil_s g), words_skip by exact Hg. reflexivity.
  - rewrite words_skip by exact Hg. destruct Hw as [Hw1 Hw2]. apply no_ws_all in Hw2.
    destruct Hn as [->|(c & r & -> & Hc)].
    + rewrite app_nil_s, words_last by auto. f_equal. exact IH.
    + rewrite words_cons; auto; [congruence|]. cbn. apply is_ws_blank. exact Hc.
Qed.
Lemma words_made s : made_of s (words s) /\
  (fst (wsplit s) = "" -> s = "" \/ exists c r, s = String c r /\ blank c).
Proof.
  induction s as [|c s [IH1 IH2]]; [split; [apply (mo_end ""); constructor|auto]|].
  unfold words in *. cbn [wsplit]. destruct (wsplit s) as [w ws] eqn:E. destruct (is_ws c) eqn:Ec; cbn [fst wcons].
  - apply is_ws_blank in Ec. split; [|intros _; right; eauto].
    inversion IH1 as [g Hg E1 E2|g w' s' ws' Hg Hw Hs Hn E1 E2]; subst.
    + apply (mo_end (String c s)). constructor; auto.
    + change (String c (g ++ w' ++ s')) with (String c g ++ w' ++ s')%string. constructor; auto. constructor; auto.
  - split; [|intros F; discriminate]. cbn [fst] in IH2.
    assert (Hc : ~ blank c) by (rewrite <- is_ws_blank; congruence).
    destruct w as [|d w]; cbn [wcons] in *.
    + change (String c s) with ("" ++ String c "" ++ s)%string. apply mo_word; auto; [constructor|].
      split; [discriminate|repeat constructor; auto].
    + inversion IH1 as [|g w' s' ws' Hg Hw Hs Hn E1 E2]; subst.
      destruct g as [|b g].
      * change (String c ("" ++ String d w ++ s')) with ("" ++ String c (String d w) ++ s')%string. apply mo_word; auto.
        destruct Hw as [_ Hw]. split; [discriminate|constructor; auto].
      * cbn [append wsplit] in E. inversion Hg as [|? ? Hb Hg' E3]. apply is_ws_blank in Hb.
        rewrite Hb in E. match type of E with (let '(_, _) := ?t in _) = _ => destruct t as [w2 ws2] end. inversion E.
Qed.
(** The words of a line are its maximal runs of characters that are not blank. *)
Theorem C59_words s ws : words s = ws <-> made_of s ws.
Proof. split; [intros <-; apply words_made|apply made_words]. Qed.

(** ** Pieces and lines *)
Lemma free_sep sep s : free (fun c => (c =? sep)%char) s = true <-> all_chars (fun c => c <> sep) s.
Proof. apply free_all. intros c. destruct (Ascii.eqb_spec c sep); split; congruence. Qed.
Lemma joined_cons sep w w' ws : joined sep (w :: w' :: ws) = (w ++ String sep (joined sep (w' :: ws)))%string.
Proof. reflexivity. Qed.
Theorem C59_pieces sep s ws : split_on sep s = ws <-> pieces sep s ws.
Proof.
  split.
  - intros <-. split; [apply split_on_nonnil|]. induction s as [|c s [IH1 IH2]]; cbn [split_on]; [split; [repeat constructor|reflexivity]|].
    destruct (Ascii.eqb_spec c sep) as [->|Hc].
    + split; [constructor; [constructor|exact IH1]|]. destruct (split_on sep s) as [|w ws] eqn:E; [destruct (split_on_nonnil _ _ E)|].
      rewrite joined_cons, <- IH2. reflexivity.
    + destruct (split_on sep s) as [|w ws] eqn:E; [destruct (split_on_nonnil _ _ E)|]. inversion IH1; subst.
      split; [constructor; auto; constructor; auto|]. destruct ws; cbn [joined]; reflexivity.
  - intros (Hn & Hf & ->). induction Hf as [|w ws Hw Hf IH]; [congruence|]. apply free_sep in Hw.
    destruct ws as [|w' ws]; [apply split_on_free; exact Hw|]. rewrite joined_cons, split_on_sep by exact Hw. f_equal. apply IH. discriminate.
Qed.
Lemma no_nl_all s : no_nl s = true <-> all_chars (fun c => ~ line_feed c) s.
Proof.
  apply free_all. intros c. unfold line_feed. rewrite eqb_code. change (code nl) with 10%N. rewrite N.eqb_neq. tauto.
Qed.
Lemma no_nls_all ls : forallb no_nl ls = true <-> Forall (all_chars (fun c => ~ line_feed c)) ls.
Proof.
  rewrite forallb_forall, Forall_forall. split; intros Hl l Hin; apply no_nl_all, Hl, Hin.
Qed.
Lemma ended_unlines ls : ended ls = unlines ls.
Proof.
  unfold unlines. induction ls as [|l ls IH]; [reflexivity|]. cbn [map ended]. rewrite concat_cons, <- IH. unfold nls. rewrite app_assoc_s. reflexivity.
Qed.
Lemma ended_app a b : ended (a ++ b) = (ended a ++ ended b)%string.
Proof. induction a as [|l a IH]; [reflexivity|]. cbn [app ended]. rewrite IH, app_assoc_s. reflexivity. Qed.
Lemma joined_ended ls l : joined nl (ls ++ [l]) = (ended ls ++ l)%string.
Proof.
  induction ls as [|a ls IH]; [reflexivity|]. cbn [app ended]. destruct (ls ++ [l]) as [|b r] eqn:E; [destruct ls; discriminate|].
  rewrite joined_cons, IH, app_assoc_s. reflexivity.
Qed.
Theorem C59_lines s ls : lines s = ls <-> has_lines s ls.
Proof.
  split.
  - intros <-. unfold lines. destruct (proj1 (C59_pieces nl s _) eq_refl) as (Hn & Hf & Hj).
    destruct (exists_last Hn) as (ps & l & E). rewrite E in *. rewrite last_last, removelast_last, joined_ended in *.
    assert (Hf' : Forall (all_chars (fun c => ~ line_feed c)) (ps ++ [l])).
    { eapply Forall_impl; [|exact Hf]. intros a Ha. unfold all_chars in *. eapply Forall_impl; [|exact Ha].
      intros c Hc Hl. apply Hc. apply code_inj. exact Hl. }
    destruct l as [|c l].
    + apply Forall_app in Hf' as [Hf' _]. split; [exact Hf'|]. left. rewrite Hj, app_nil_s. reflexivity.
    + split; [exact Hf'|]. right. exists ps, (String c l). split; [reflexivity|]. split; [discriminate|exact Hj].
  - intros [Hf [->|(ls' & l & -> & Hl & ->)]].
    + rewrite ended_unlines. apply lines_unlines. apply no_nls_all. exact Hf.
    + apply Forall_app in Hf as [Hf1 Hf2]. inversion Hf2; subst. rewrite ended_unlines. apply lines_unlines_last; auto; [apply no_nls_all; auto|apply no_nl_all; auto].
Qed.

(** ** UTF-8 *)
Lemma byte_in_code lo hi c : byte_in lo hi c = true <-> (lo <= code c <= hi)%N.
Proof. unfold byte_in, code. rewrite andb_true_iff, !N.leb_le. tauto. Qed.
Lemma is_utf8_nil : is_utf8 "".
Proof. exists []. split; [constructor|reflexivity]. Qed.
Lemma is_utf8_cons cp t s : scalar cp -> map code (list_ascii_of_string t) = utf8_bytes cp -> is_utf8 s -> is_utf8 (t ++ s)%string.
Proof.
  intros Hs Ht (cps & Hf & Hc). exists (cp :: cps). split; [constructor; auto|]. cbn [flat_map]. rewrite <- Hc, <- Ht.
  clear. induction t as [|c t IH]; [reflexivity|]. cbn [append list_ascii_of_string map app]. rewrite IH. reflexivity.
Qed.
Ltac by_ranges := repeat match goal with
  | H : (_ && _) = true |- _ => apply andb_true_iff in H as [? ?]
  | H : byte_in _ _ _ = true |- _ => apply byte_in_code in H
  | H : cont _ = true |- _ => apply byte_in_code in H
  end.
Lemma bytes2 a b : (194 <= a <= 223)%N -> (128 <= b <= 191)%N ->
  let cp := ((a - 192) * 64 + (b - 128))%N in scalar cp /\ utf8_bytes cp = [a; b].
Proof.
  intros Ha Hb cp. assert (Hq : (cp / 64 = a - 192)%N) by (symmetry; apply (N.div_unique cp 64 (a - 192) (b - 128)); unfold cp; lia).
  assert (Hm : (cp mod 64 = b - 128)%N) by (symmetry; apply (N.mod_unique cp 64 (a - 192) (b - 128)); unfold cp; lia).
  assert (Hr : (128 <= cp < 2048)%N) by (unfold cp; lia). split; [left; lia|]. unfold utf8_bytes.
  destruct (N.ltb_spec cp 128); [lia|]. destruct (N.ltb_spec cp 2048); [|lia]. rewrite Hq, Hm. repeat f_equal; lia.
Qed.
Lemma bytes3 a b c : (224 <= a <= 239)%N -> (128 <= b <= 191)%N -> (128 <= c <= 191)%N -> (a = 224 -> 160 <= b)%N -> (a = 237 -> b <= 159)%N ->
  let cp := ((a - 224) * 4096 + (b - 128) * 64 + (c - 128))%N in scalar cp /\ utf8_bytes cp = [a; b; c].
Proof.
  intros Ha Hb Hc H1 H2 cp.
  assert (Hq : (cp / 4096 = a - 224)%N) by (symmetry; apply (N.div_unique cp 4096 (a - 224) ((b - 128) * 64 + (c - 128))); unfold cp; lia).
  assert (Hq2 : (cp / 64 = (a - 224) * 64 + (b - 128))%N) by (symmetry; apply (N.div_unique cp 64 ((a - 224) * 64 + (b - 128)) (c - 128)); unfold cp; lia).
  assert (Hm2 : (cp / 64 mod 64 = b - 128)%N) by (rewrite Hq2; symmetry; apply (N.mod_unique _ 64 (a - 224) (b - 128)); lia).
  assert (Hm : (cp mod 64 = c - 128)%N) by (symmetry; apply (N.mod_unique cp 64 ((a - 224) * 64 + (b - 128)) (c - 128)); unfold cp; lia).
  assert (Hr : (2048 <= cp < 65536)%N) by (unfold cp; lia).
  split; [unfold scalar, cp in *; lia|]. unfold utf8_bytes.
  destruct (N.ltb_spec cp 128); [lia|]. destruct (N.ltb_spec cp 2048); [lia|]. destruct (N.ltb_spec cp 65536); [|lia]. rewrite Hq, Hm2, Hm. repeat f_equal; lia.
Qed.
Lemma bytes4 a b c d : (240 <= a <= 244)%N -> (128 <= b <= 191)%N -> (128 <= c <= 191)%N -> (128 <= d <= 191)%N ->
  (a = 240 -> 144 <= b)%N -> (a = 244 -> b <= 143)%N ->
  let cp := ((a - 240) * 262144 + (b - 128) * 4096 + (c - 128) * 64 + (d - 128))%N in scalar cp /\ utf8_bytes cp = [a; b; c; d].
Proof.
  intros Ha Hb Hc Hd H1 H2 cp.
  assert (Hq : (cp / 262144 = a - 240)%N) by (symmetry; apply (N.div_unique cp 262144 (a - 240) ((b - 128) * 4096 + (c - 128) * 64 + (d - 128))); unfold cp; lia).
  assert (Hq1 : (cp / 4096 = (a - 240) * 64 + (b - 128))%N) by (symmetry; apply (N.div_unique cp 4096 ((a - 240) * 64 + (b - 128)) ((c - 128) * 64 + (d - 128))); unfold cp; lia).
  assert (Hm1 : (cp / 4096 mod 64 = b - 128)%N) by (rewrite Hq1; symmetry; apply (N.mod_unique _ 64 (a - 240) (b - 128)); lia).
  assert (Hq2 : (cp / 64 = (a - 240) * 4096 + (b - 128) * 64 + (c - 128))%N) by (symmetry; apply (N.div_unique cp 64 ((a - 240) * 4096 + (b - 128) * 64 + (c - 128)) (d - 128)); unfold cp; lia).
  assert (Hm2 : (cp / 64 mod 64 = c - 128)%N) by (rewrite Hq2; symmetry; apply (N.mod_unique _ 64 ((a - 240) * 64 + (b - 128)) (c - 128)); lia).
  assert (Hm : (cp mod 64 = d - 128)%N) by (symmetry; apply (N.mod_unique cp 64 ((a - 240) * 4096 + (b - 128) * 64 + (c - 128)) (d - 128)); unfold cp; lia).
  assert (Hr : (65536 <= cp < 1114112)%N) by (unfold cp; lia).
  split; [unfold scalar; lia|]. unfold utf8_bytes.
  destruct (N.ltb_spec cp 128); [lia|]. destruct (N.ltb_spec cp 2048); [lia|]. destruct (N.ltb_spec cp 65536); [lia|].
  rewrite Hq, Hm1, Hm2, Hm. repeat f_equal; lia.
Qed.
Lemma utf8_is n : forall s, (String.length s <= n)%nat -> utf8_valid s = true -> is_utf8 s.
Proof.
  induction n as [|n IH]; intros [|a s1] Hl Hv; try apply is_utf8_nil; [cbn in Hl; lia|]. cbn [String.length] in Hl. cbn [utf8_valid] in Hv.
  destruct (byte_in 0 127 a) eqn:Ea.
  - by_ranges. change (String a s1) with (String a "" ++ s1)%string. apply (is_utf8_cons (code a)); [left; lia| |apply IH; [lia|exact Hv]].
    unfold utf8_bytes. destruct (N.ltb_spec (code a) 128); [reflexivity|lia].
  - destruct s1 as [|b s2]; [discriminate|]. cbn [String.length] in Hl. destruct (byte_in 194 223 a) eqn:Eb.
    + by_ranges. change (String a (String b s2)) with (String a (String b "") ++ s2)%string.
      destruct (bytes2 (code a) (code b)) as [S B]; [assumption..|]. eapply is_utf8_cons; [exact S|symmetry; exact B|apply IH; [lia|assumption]].
    + destruct s2 as [|c s3]; [discriminate|]. cbn [String.length] in Hl.
      match type of Hv with (if ?g then _ else _) = _ => destruct g eqn:Eg end.
      * apply andb_true_iff in Hv as [Hc Hv].
        change (String a (String b (String c s3))) with (String a (String b (String c "")) ++ s3)%string.
        destruct (bytes3 (code a) (code b) (code c)) as [S B]; [..|eapply is_utf8_cons; [exact S|symmetry; exact B|apply IH; [lia|assumption]]];
          repeat (apply orb_true_iff in Eg as [Eg|Eg]); by_ranges; lia.
      * destruct s3 as [|d s4]; [discriminate|]. cbn [String.length] in Hl. clear Eg.
        apply andb_true_iff in Hv as [Hv Hv4]. apply andb_true_iff in Hv as [Hv Hd]. apply andb_true_iff in Hv as [Eg Hc].
        change (String a (String b (String c (String d s4)))) with (String a (String b (String c (String d ""))) ++ s4)%string.
        destruct (bytes4 (code a) (code b) (code c) (code d)) as [S B]; [..|eapply is_utf8_cons; [exact S|symmetry; exact B|apply IH; [lia|assumption]]];
          repeat (apply orb_true_iff in Eg as [Eg|Eg]); by_ranges; lia.
Qed.
Lemma byte_true lo hi c : (lo <= code c <= hi)%N -> byte_in lo hi c = true.
Proof. apply byte_in_code. Qed.
Lemma byte_false lo hi c : ~ (lo <= code c <= hi)%N -> byte_in lo hi c = false.
Proof. intros Hn. destruct (byte_in lo hi c) eqn:E; [|reflexivity]. apply byte_in_code in E. contradiction. Qed.
Lemma cons1 (a b : N) l m : a :: l = b :: m -> a = b /\ l = m.
Proof. inversion 1. auto. Qed.
Lemma cons2 (a b c d : N) l m : a :: b :: l = c :: d :: m -> a = c /\ b = d /\ l = m.
Proof. inversion 1. auto. Qed.
Lemma is_valid cps : Forall scalar cps -> forall s, map code (list_ascii_of_string s) = flat_map utf8_bytes cps -> utf8_valid s = true.
Proof.
  induction 1 as [|cp cps Hs Hf IH]; intros s E; [destruct s; [reflexivity|discriminate]|].
  cbn [flat_map] in E. unfold utf8_bytes in E.
  destruct (N.ltb_spec cp 128) as [H1|H1]; [|destruct (N.ltb_spec cp 2048) as [H2|H2]; [|destruct (N.ltb_spec cp 65536) as [H3|H3]]].
  - destruct s as [|a s]; [discriminate|]. cbn [list_ascii_of_string map app] in E. destruct (cons1 _ _ _ _ E) as (Ea & Es). cbn [utf8_valid].
    rewrite byte_true by lia. apply IH, Es.
  - destruct s as [|a [|b s]]; try discriminate. cbn [list_ascii_of_string map app] in E. destruct (cons2 _ _ _ _ _ _ E) as (Ea & Eb & Es). cbn [utf8_valid].
    assert (Q : (2 <= cp / 64 < 32)%N) by (split; [apply N.div_le_lower_bound; lia|apply N.div_lt_upper_bound; lia]).
    assert (Q1 : (0 <= cp mod 64 < 64)%N) by (split; [apply N.le_0_l|apply N.mod_lt; lia]).
    rewrite (byte_false 0 127), (byte_true 194 223) by lia. unfold cont. rewrite (byte_true 128 191 b) by lia. apply IH, Es.
  - destruct s as [|a [|b [|c s]]]; try discriminate. cbn [list_ascii_of_string map app] in E. destruct (cons2 _ _ _ _ _ _ E) as (Ea & Eb & E'); destruct (cons1 _ _ _ _ E') as (Ec & Es). cbn [utf8_valid].
    assert (Q : (0 <= cp / 4096 < 16)%N) by (split; [apply N.le_0_l|apply N.div_lt_upper_bound; lia]).
    assert (Q1 : (0 <= cp mod 64 < 64)%N) by (split; [apply N.le_0_l|apply N.mod_lt; lia]).
    assert (Q2 : (0 <= cp / 64 mod 64 < 64)%N) by (split; [apply N.le_0_l|apply N.mod_lt; lia]).
    assert (D : (cp = 64 * (cp / 64) + cp mod 64)%N) by (apply N.div_mod; lia).
    assert (D2 : (cp / 64 = 64 * (cp / 4096) + cp / 64 mod 64)%N).
    { replace (cp / 4096)%N with (cp / 64 / 64)%N by (rewrite N.div_div by lia; reflexivity). apply N.div_mod. lia. }
    assert (S1 : (cp / 4096 = 0 -> 32 <= cp / 64 mod 64)%N) by lia.
    assert (S2 : (cp / 4096 = 13 -> cp / 64 mod 64 < 32)%N) by (unfold scalar in Hs; lia).
    rewrite (byte_false 0 127), (byte_false 194 223) by lia. unfold cont. rewrite (byte_true 128 191 b), (byte_true 128 191 c) by lia. rewrite !andb_true_r, andb_true_l.
    rewrite (IH s Es).
    match goal with |- (if ?g then _ else _) = _ => replace g with true; [reflexivity|symmetry] end.
    assert (Hcase : (cp / 4096 = 0 \/ 1 <= cp / 4096 <= 12 \/ cp / 4096 = 13 \/ 14 <= cp / 4096 <= 15)%N) by lia.
    destruct Hcase as [Hc|[Hc|[Hc|Hc]]].
    + rewrite (byte_true 224 224), (byte_true 160 191) by lia. reflexivity.
    + rewrite (byte_true 225 236) by lia. rewrite orb_true_r. reflexivity.
    + rewrite (byte_true 237 237), (byte_true 128 159) by lia. rewrite orb_true_r. reflexivity.
    + rewrite (byte_true 238 239) by lia. rewrite orb_true_r. reflexivity.
  - destruct s as [|a [|b [|c [|d s]]]]; try discriminate. cbn [list_ascii_of_string map app] in E. destruct (cons2 _ _ _ _ _ _ E) as (Ea & Eb & E'); destruct (cons2 _ _ _ _ _ _ E') as (Ec & Ed & Es). cbn [utf8_valid].
    assert (Hb : (cp < 1114112)%N) by (unfold scalar in Hs; lia).
    assert (Q : (0 <= cp / 262144 < 5)%N) by (split; [apply N.le_0_l|apply N.div_lt_upper_bound; lia]).
    assert (Q1 : (0 <= cp mod 64 < 64)%N) by (split; [apply N.le_0_l|apply N.mod_lt; lia]).
    assert (Q2 : (0 <= cp / 64 mod 64 < 64)%N) by (split; [apply N.le_0_l|apply N.mod_lt; lia]).
    assert (Q3 : (0 <= cp / 4096 mod 64 < 64)%N) by (split; [apply N.le_0_l|apply N.mod_lt; lia]).
    assert (D : (cp = 4096 * (cp / 4096) + cp mod 4096)%N) by (apply N.div_mod; lia).
    assert (Q4 : (0 <= cp mod 4096 < 4096)%N) by (split; [apply N.le_0_l|apply N.mod_lt; lia]).
    assert (D2 : (cp / 4096 = 64 * (cp / 262144) + cp / 4096 mod 64)%N).
    { replace (cp / 262144)%N with (cp / 4096 / 64)%N by (rewrite N.div_div by lia; reflexivity). apply N.div_mod. lia. }
    assert (S1 : (cp / 262144 = 0 -> 16 <= cp / 4096 mod 64)%N) by lia.
    assert (S2 : (cp / 262144 = 4 -> cp / 4096 mod 64 < 16)%N) by lia.
    rewrite (byte_false 0 127), (byte_false 194 223) by lia.
    rewrite (byte_false 224 224), (byte_false 225 236), (byte_false 237 237), (byte_false 238 239) by lia. cbn [andb orb]. unfold cont.
    rewrite (byte_true 128 191 b), (byte_true 128 191 c), (byte_true 128 191 d) by lia. rewrite (IH s Es), !andb_true_r.
    assert (Hcase : (cp / 262144 = 0 \/ 1 <= cp / 262144 <= 3 \/ cp / 262144 = 4)%N) by lia.
    destruct Hcase as [Hc|[Hc|Hc]].
    + rewrite (byte_true 240 240), (byte_true 144 191) by lia. reflexivity.
    + rewrite (byte_true 241 243) by lia. rewrite orb_true_r. reflexivity.
    + rewrite (byte_true 244 244), (byte_true 128 143) by lia. rewrite orb_true_r. reflexivity.
Qed.
(** A text is accepted exactly when it is the UTF-8 encoding of some characters. *)
Theorem C59_utf8 s : utf8_valid s = true <-> is_utf8 s.
Proof. split; [apply (utf8_is _ s (le_n _))|]. intros (cps & Hf & E). exact (is_valid cps Hf s E). Qed.

(** ** Numerals *)
Lemma digit_val_iff c d : digit_val c = Some d <-> digit c d.
Proof.
  unfold digit_val, digit. destruct (byte_in 48 57 c) eqn:E.
  - apply byte_in_code in E. unfold code in *. split; [intros Q; injection Q as <-; lia|]. intros [H1 H2]. f_equal. lia.
  - split; [discriminate|]. intros [H1 H2]. assert (byte_in 48 57 c = true) by (apply byte_in_code; lia). congruence.
Qed.
Definition no_digit (s : string) : Prop := match s with String c _ => forall d, ~ digit c d | _ => True end.
Lemma no_digit_val s : no_digit s -> match s with String c _ => digit_val c = None | _ => True end.
Proof. destruct s as [|c s]; [auto|]. cbn. intros Hn. destruct (digit_val c) as [d|] eqn:E; [|reflexivity]. apply digit_val_iff in E. destruct (Hn d E). Qed.
Lemma take_on t : forall ds acc cnt r, digits t ds -> no_digit r ->
  take_digits acc cnt (t ++ r)%string = ((cnt + length ds)%nat, (acc * 10 ^ N.of_nat (length ds) + dvalue ds)%N, r).
Proof.
  unfold digits. induction t as [|c t IH]; cbn [list_ascii_of_string append]; intros ds acc cnt r Hd Hr; inversion Hd as [|? d ? ds' Hc Hd']; subst.
  - cbn [length dvalue N.of_nat]. rewrite N.pow_0_r, N.mul_1_r, N.add_0_r, Nat.add_0_r. apply take_digits_stop, no_digit_val, Hr.
  - cbn [take_digits]. rewrite (proj2 (digit_val_iff c d) Hc), (IH ds' _ _ r Hd' Hr). cbn [length dvalue]. rewrite Nat2N.inj_succ, N.pow_succ_r'.
    f_equal; [f_equal; [lia|ring]].
Qed.
Lemma take_any s : exists t ds r, s = (t ++ r)%string /\ digits t ds /\ no_digit r.
Proof.
  unfold digits. induction s as [|c s (t & ds & r & -> & Hd & Hr)]; [exists "", [], ""; repeat split; constructor|].
  destruct (digit_val c) as [d|] eqn:E.
  - apply digit_val_iff in E. exists (String c t), (d :: ds), r. repeat split; auto. constructor; auto.
  - exists "", [], (String c (t ++ r)). split; [reflexivity|]. split; [constructor|]. cbn. intros d Hd'. apply digit_val_iff in Hd'. congruence.
Qed.
Lemma plus_no_digit d : ~ digit "+" d.
Proof. intros [H1 H2]. change (code "+") with 43%N in H2. lia. Qed.
Lemma minus_no_digit d : ~ digit "-" d.
Proof. intros [H1 H2]. change (code "-") with 45%N in H2. lia. Qed.
Lemma digits_nil t ds : digits t ds -> (t = "" <-> ds = []).
Proof. unfold digits. intros Hd. destruct t; inversion Hd; split; congruence. Qed.
Lemma digits_app t ds t' ds' : digits t ds -> digits t' ds' -> digits (t ++ t')%string (ds ++ ds').
Proof.
  unfold digits. revert ds. induction t as [|c t IH]; cbn [list_ascii_of_string append]; intros ds Hd Hd'; inversion Hd; subst; [exact Hd'|].
  constructor; auto.
Qed.
Lemma dvalue_app a b : dvalue (a ++ b) = (dvalue a * 10 ^ N.of_nat (length b) + dvalue b)%N.
Proof.
  induction a as [|d a IH]; [reflexivity|]. cbn [app dvalue]. rewrite IH, app_length, Nat2N.inj_add, N.pow_add_r. ring.
Qed.

(** Integers: an optional plus sign and digits, below 2^64. *)
Theorem C59_integers s n : parse_usize s = Some n <-> integer_text s n.
Proof.
  unfold parse_usize, integer_text.
  assert (Core : forall t, match take_digits 0 0 t with
                           | (S _, k, "") => if (k <? 2 ^ 64)%N then Some (N.to_nat k) else None
                           | _ => None end = Some n <->
                 exists ds, digits t ds /\ ds <> [] /\ N.of_nat n = dvalue ds /\ (N.of_nat n < 2 ^ 64)%N).
  { intros t. destruct (take_any t) as (t1 & ds & r & -> & Hd & Hr). rewrite (take_on t1 ds 0 0 r Hd Hr). cbn [Nat.add]. rewrite N.mul_0_l, N.add_0_l.
    split.
    - destruct (length ds) eqn:El; [discriminate|]. destruct r as [|c r]; [|discriminate]. destruct (N.ltb_spec (dvalue ds) (2 ^ 64)) as [Hlt|]; [|discriminate].
      intros E. injection E as <-. exists ds. rewrite app_nil_s, N2Nat.id. repeat split; auto. intros ->. discriminate.
    - intros (ds' & Hd' & Hn & Ev & Hlt). pose proof (take_on _ ds' 0 0 "" Hd' I) as T. rewrite app_nil_s in T.
      rewrite (take_on t1 ds 0 0 r Hd Hr) in T. rewrite !N.mul_0_l, !N.add_0_l in T. injection T as T1 T2 T3. subst r.
      destruct ds as [|d ds]; [destruct ds'; [congruence|discriminate]|]. cbn [length]. rewrite T2, <- Ev.
      destruct (N.ltb_spec (N.of_nat n) (2 ^ 64)); [|lia]. rewrite Nat2N.id. reflexivity. }
  destruct s as [|c s].
  - rewrite Core. split; [intros (ds & Hd & Hn & _); apply digits_nil in Hd; destruct Hn; apply Hd; reflexivity|].
    intros (sg & t & ds & Hs & Hd & Hn & E & _). destruct sg; [|discriminate]. cbn in E. subst t. apply digits_nil in Hd. destruct Hn. apply Hd. reflexivity.
  - destruct (Ascii.eqb_spec c "+") as [->|Hc]; rewrite Core.
    + split; [intros (ds & A & B & C & D); exists "+", s, ds; repeat split; auto|].
      intros (sg & t & ds & Hs & Hd & Hn & E & Ev). destruct Hs as [->| ->]; [|injection E as ->; eauto].
      cbn in E. subst t. inversion Hd as [|? d ? ? Hc]. destruct (plus_no_digit d Hc).
    + split; [intros (ds & A & B & C & D); exists "", (String c s), ds; repeat split; auto|].
      intros (sg & t & ds & Hs & Hd & Hn & E & Ev). destruct Hs as [->| ->]; [|injection E as -> _; congruence].
      cbn in E. subst t. eauto.
Qed.

Lemma sign_on sg neg r : sign_text sg neg -> (match r with String c _ => c <> "-"%char /\ c <> "+"%char | _ => True end) -> parse_sign (sg ++ r)%string = (neg, r).
Proof.
  intros Hs Hr. destruct Hs; cbn [append]; try reflexivity. destruct r as [|c r]; [reflexivity|]. destruct Hr as [H1 H2]. cbn [parse_sign].
  destruct (Ascii.eqb_spec c "-"); [congruence|]. destruct (Ascii.eqb_spec c "+"); [congruence|]. reflexivity.
Qed.
Lemma sign_any s neg r : parse_sign s = (neg, r) -> exists sg, sign_text sg neg /\ s = (sg ++ r)%string.
Proof.
  destruct s as [|c s]; cbn [parse_sign]; [intros E; injection E as <- <-; exists ""; split; [constructor|reflexivity]|].
  destruct (Ascii.eqb_spec c "-") as [->|]; [intros E; injection E as <- <-; exists "-"; split; [constructor|reflexivity]|].
  destruct (Ascii.eqb_spec c "+") as [->|]; intros E; injection E as <- <-; [exists "+"|exists ""]; (split; [constructor|reflexivity]).
Qed.
Lemma digit_no_sign c d : digit c d -> c <> "-"%char /\ c <> "+"%char.
Proof. intros Hd. split; intros ->; [destruct (minus_no_digit d Hd)|destruct (plus_no_digit d Hd)]. Qed.
Lemma digits_no_sign t ds r : digits t ds -> ds <> [] -> match (t ++ r)%string with String c _ => c <> "-"%char /\ c <> "+"%char | _ => True end.
Proof. intros Hd Hn. destruct t as [|c t]; inversion Hd; subst; [congruence|]. eapply digit_no_sign; eauto. Qed.

Lemma exp_on te e : exponent_text te e -> parse_exp te = Some e /\ no_digit te /\ match te with String c _ => c <> "."%char | _ => True end.
Proof.
  intros [|c sg neg t ds Hc Hs Hd Hn]; [repeat split|].
  assert (Hcc : (c =? "e")%char || (c =? "E")%char = true) by (destruct Hc as [->| ->]; reflexivity).
  split; [|split].
  - cbn [parse_exp]. rewrite Hcc. rewrite (sign_on sg neg t Hs) by (rewrite <- (app_nil_s t); eapply digits_no_sign; eauto).
    rewrite <- (app_nil_s t), (take_on t ds 0 0 "" Hd I). destruct ds as [|d ds]; [congruence|]. cbn [length Nat.add]. rewrite N.mul_0_l, N.add_0_l. reflexivity.
  - cbn. intros d [D1 D2]. destruct Hc as [->| ->]; [change (code "e") with 101%N in D2|change (code "E") with 69%N in D2]; lia.
  - destruct Hc as [->| ->]; discriminate.
Qed.
Lemma exp_any te e : parse_exp te = Some e -> exponent_text te e.
Proof.
  destruct te as [|c r]; cbn [parse_exp]; [intros E; injection E as <-; constructor|].
  destruct ((c =? "e")%char || (c =? "E")%char) eqn:Ec; [|discriminate].
  assert (Hc : c = "e"%char \/ c = "E"%char) by (apply orb_true_iff in Ec as [Ec|Ec]; apply Ascii.eqb_eq in Ec; auto).
  destruct (parse_sign r) as [neg r1] eqn:Es. destruct (sign_any _ _ _ Es) as (sg & Hs & ->).
  destruct (take_any r1) as (t & ds & r2 & -> & Hd & Hr). rewrite (take_on t ds 0 0 r2 Hd Hr). cbn [Nat.add]. rewrite N.mul_0_l, N.add_0_l.
  destruct (length ds) eqn:El; [discriminate|]. destruct r2 as [|? ?]; [|discriminate]. intros E. injection E as <-. rewrite app_nil_s.
  apply et_exp; auto. intros ->. discriminate.
Qed.
(** The parts of a decimal numeral. *)
Definition decimal_parts (s : string) (neg : bool) (ids fds : list N) (e : Z) : Prop :=
  exists sg ti tf te, sign_text sg neg /\ digits ti ids /\ fraction_text tf fds /\ exponent_text te e /\ ids ++ fds <> [] /\ s = (sg ++ ti ++ tf ++ te)%string.
Lemma dec_on s neg ids fds e : decimal_parts s neg ids fds e -> parse_dec s = Some (neg, dvalue (ids ++ fds), (e - Z.of_nat (length fds))%Z).
Proof.
  intros (sg & ti & tf & te & Hs & Hi & Hf & He & Hn & ->). destruct (exp_on te e He) as (E1 & E2 & E3). unfold parse_dec.
  assert (Hns : match (ti ++ tf ++ te)%string with String c _ => c <> "-"%char /\ c <> "+"%char | _ => True end).
  { destruct ids as [|d ids].
    - apply digits_nil in Hi. rewrite (proj2 Hi eq_refl). destruct Hf as [|t ds Hd]; [cbn in Hn; congruence|]. cbn. split; discriminate.
    - eapply digits_no_sign; eauto. discriminate. }
  rewrite (sign_on sg neg _ Hs Hns).
  assert (Hnd : no_digit (tf ++ te)).
  { destruct Hf as [|t ds Hd]; [exact E2|]. cbn. intros d [D1 D2]. change (code ".") with 46%N in D2. lia. }
  rewrite (take_on ti ids 0 0 _ Hi Hnd). cbn [Nat.add]. rewrite N.mul_0_l, N.add_0_l.
  destruct Hf as [|t ds Hd].
  - cbn [append]. rewrite app_nil_r in *. destruct ids as [|d ids]; [congruence|]. cbn [length].
    destruct te as [|c te]; [|destruct (Ascii.eqb_spec c "."); [congruence|]]; rewrite Nat.add_0_r, E1; cbn [Z.of_nat]; rewrite Z.sub_0_r; reflexivity.
  - cbn [append]. change ((("." =? "."))%char) with true. cbv iota. rewrite (take_on t ds (dvalue ids) 0 te Hd E2). cbn [Nat.add].
    rewrite <- dvalue_app. rewrite <- app_length. destruct (ids ++ ds) as [|d l] eqn:El; [congruence|]. cbn [length]. rewrite E1. reflexivity.
Qed.
Lemma dec_any s neg m e : parse_dec s = Some (neg, m, e) -> exists ids fds e', decimal_parts s neg ids fds e' /\ m = dvalue (ids ++ fds) /\ e = (e' - Z.of_nat (length fds))%Z.
Proof.
  unfold parse_dec. destruct (parse_sign s) as [neg' r] eqn:Es. destruct (sign_any _ _ _ Es) as (sg & Hs & ->).
  destruct (take_any r) as (ti & ids & r1 & -> & Hi & Hr1). rewrite (take_on ti ids 0 0 r1 Hi Hr1). cbn [Nat.add]. rewrite N.mul_0_l, N.add_0_l.
  assert (Plain : forall e', parse_exp r1 = Some e' -> length ids <> 0%nat -> decimal_parts (sg ++ ti ++ r1)%string neg' ids [] e').
  { intros e' Ee Hl. exists sg, ti, "", r1. repeat split; auto; [constructor|apply exp_any; auto|]. rewrite app_nil_r. intros ->. auto. }
  destruct r1 as [|c r1].
  - destruct (length ids + 0)%nat eqn:El; [discriminate|]. cbn [parse_exp]. intros E. injection E as <- <- <-. exists ids, [], 0%Z. rewrite app_nil_r.
    split; [apply Plain; [reflexivity|lia]|]. split; reflexivity.
  - destruct (Ascii.eqb_spec c ".") as [->|Hc].
    + destruct (take_any r1) as (tf & fds & r2 & -> & Hf & Hr2). rewrite (take_on tf fds _ 0 r2 Hf Hr2). cbn [Nat.add]. rewrite <- dvalue_app, <- app_length.
      destruct (length (ids ++ fds)) eqn:El; [discriminate|]. destruct (parse_exp r2) as [e'|] eqn:Ee; [|discriminate]. intros E. injection E as <- <- <-.
      exists ids, fds, e'. split; [|auto]. exists sg, ti, (String "." tf), r2. split; [auto|]. split; [auto|]. split; [constructor; auto|].
      split; [apply exp_any; auto|]. split; [intros Q; rewrite Q in El; discriminate|reflexivity].
    + destruct (length ids + 0)%nat eqn:El; [discriminate|]. destruct (parse_exp (String c r1)) as [e'|] eqn:Ee; [|discriminate]. intros E. injection E as <- <- <-.
      exists ids, [], e'. rewrite app_nil_r. split; [apply Plain; [reflexivity|lia]|]. split; [reflexivity|]. cbn [length Z.of_nat]. lia.
Qed.

Local Open Scope R_scope.
Lemma float_value_fval x : float_value x = fval x.
Proof. destruct x as [| | |s m e]; try reflexivity. cbn. destruct s; cbn; lra. Qed.
Lemma nearest64_RN r : nearest64 r = RN r.
Proof. reflexivity. Qed.
Lemma parts_value (neg : bool) ids fds e :
  (if neg then -1 else 1) * (natural (dvalue ids) + natural (dvalue fds) / 10 ^ length fds) * powerRZ 10 e =
  dval neg (dvalue (ids ++ fds)) (e - Z.of_nat (length fds)).
Proof.
  unfold dval. rewrite dvalue_app, NR_add, NR_mul. change natural with NR.
  replace (e - Z.of_nat (length fds))%Z with (e + - Z.of_nat (length fds))%Z by lia. rewrite p10_add, p10_opp.
  replace (NR (10 ^ N.of_nat (length fds))) with (10 ^ length fds).
  2:{ rewrite <- p10_N, nat_N_Z, <- pow_powerRZ. reflexivity. }
  rewrite <- pow_powerRZ. assert (Hp : 10 ^ length fds <> 0) by (apply pow_nonzero; lra).
  destruct neg; cbn [sgn]; field; exact Hp.
Qed.
Lemma decimal_text_parts s neg r : decimal_text s neg r <-> exists m e, parse_dec s = Some (neg, m, e) /\ r = dval neg m e.
Proof.
  split.
  - intros [sg neg' ti ids tf fds te e Hs Hi Hf He Hn]. exists (dvalue (ids ++ fds)), (e - Z.of_nat (length fds))%Z.
    split; [apply dec_on; exists sg, ti, tf, te; auto 10|apply parts_value].
  - intros (m & e & Ep & ->). destruct (dec_any _ _ _ _ Ep) as (ids & fds & e' & (sg & ti & tf & te & Hs & Hi & Hf & He & Hn & ->) & -> & ->).
    rewrite <- parts_value. constructor; auto.
Qed.
Lemma round_dec_nearest neg m e : nearest_float neg (dval neg m e) (round_dec neg m e).
Proof.
  destruct m as [|p].
  - cbn [round_dec]. unfold nearest_float. rewrite nearest64_RN.
    replace (dval neg 0 e) with 0 by (unfold dval; change (NR 0) with 0; rewrite Rmult_0_l; destruct neg; cbn [sgn]; lra).
    assert (E : RN 0 = 0) by (apply round_0; apply valid_rnd_N). rewrite E, Rabs_R0.
    split; [reflexivity|]. split; [intros _; split; reflexivity|]. intros Hl. pose proof (p2_pos 1024). lra.
  - destruct (round_dec_correct neg p e) as (V & F1 & F2). unfold nearest_float. rewrite nearest64_RN, float_value_fval.
    unfold in_f64 in *. rewrite bpow2 in *. split; [exact V|]. split.
    + intros Hl. destruct (F1 Hl) as (A & B & C). split; [exact A|]. destruct (round_dec neg (N.pos p) e); try discriminate; exact C.
    + intros Hl. apply F2. lra.
Qed.
Lemma nearest_unique neg r x y : nearest_float neg r x -> nearest_float neg r y -> x = y.
Proof.
  intros (V1 & A1 & B1) (V2 & A2 & B2). destruct (Rlt_or_le (Rabs (nearest64 r)) (powerRZ 2 1024)) as [Hl|Hl].
  - destruct (A1 Hl) as [E1 S1]. destruct (A2 Hl) as [E2 S2]. rewrite float_value_fval in *. 
    apply fval_inj; auto.
    + destruct x; try contradiction; reflexivity.
    + destruct y; try contradiction; reflexivity.
    + congruence.
    + destruct x, y; try contradiction; cbn [sign_SF]; congruence.
  - rewrite (B1 Hl), (B2 Hl). reflexivity.
Qed.
Lemma code_lower c : code (lower c) = if byte_in 65 90 c then (code c + 32)%N else code c.
Proof.
  unfold lower. destruct (byte_in 65 90 c) eqn:E; [|reflexivity]. apply byte_in_code in E. unfold code in *. apply N_ascii_embedding. lia.
Qed.
(** Lower-case letters. *)
Definition low (b : ascii) : Prop := (97 <= code b <= 122)%N.
Lemma lower_iff a b : low b -> (lower a = b <-> code a = code b \/ (code a + 32 = code b)%N).
Proof.
  intros Hb. unfold low in Hb. split.
  - intros <-. rewrite code_lower. destruct (byte_in 65 90 a); auto.
  - intros Hc. apply code_inj. rewrite code_lower. destruct (byte_in 65 90 a) eqn:E.
    + apply byte_in_code in E. lia.
    + destruct Hc as [Hc|Hc]; [exact Hc|]. assert (byte_in 65 90 a = true) by (apply byte_in_code; lia). congruence.
Qed.
Lemma lower_spells s : forall w, all_chars low w -> (lower_s s = w <-> spells s w).
Proof.
  unfold spells, all_chars. induction s as [|a s IH]; intros [|b w] Hw; cbn [lower_s list_ascii_of_string] in *.
  - split; [constructor|reflexivity].
  - split; [discriminate|intros F; inversion F].
  - split; [discriminate|intros F; inversion F].
  - inversion Hw as [|? ? Hb Hw']; subst. split.
    + intros E. injection E as E1 E2. constructor; [apply lower_iff; auto|apply IH; auto].
    + intros F. inversion F as [|? ? ? ? F1 F2]; subst. f_equal; [apply lower_iff; auto|apply IH; auto].
Qed.
Lemma low_inf : all_chars low "inf". Proof. repeat constructor; cbn; unfold low, code; cbn; lia. Qed.
Lemma low_infinity : all_chars low "infinity". Proof. repeat constructor; cbn; unfold low, code; cbn; lia. Qed.
Lemma low_nan : all_chars low "nan". Proof. repeat constructor; cbn; unfold low, code; cbn; lia. Qed.
(** A text starting with a letter is no numeral. *)
Lemma letter_spelled s w : spells s w -> all_chars low w -> w <> "" -> exists c r, s = String c r /\ (65 <= code c)%N.
Proof.
  unfold spells, all_chars. destruct w as [|b w]; [congruence|]. destruct s as [|c s]; cbn [list_ascii_of_string]; intros F Hw _; inversion F as [|? ? ? ? F1 F2]; subst.
  inversion Hw as [|? ? Hb _]; subst. unfold low in Hb. exists c, s. split; [reflexivity|lia].
Qed.
Lemma letter_no_sign c : (65 <= code c)%N -> c <> "-"%char /\ c <> "+"%char /\ c <> "."%char /\ forall d, ~ digit c d.
Proof.
  intros Hc. repeat split; try (intros ->; unfold code in Hc; cbn in Hc; lia). intros d [D1 D2]. lia.
Qed.
Lemma letter_no_dec sg neg c r : sign_text sg neg -> (65 <= code c)%N -> parse_dec (sg ++ String c r)%string = None.
Proof.
  intros Hs Hc. destruct (letter_no_sign c Hc) as (N1 & N2 & N3 & N4). unfold parse_dec. rewrite (sign_on sg neg _ Hs) by auto.
  rewrite take_digits_stop.
  - destruct (Ascii.eqb_spec c "."); [congruence|]. reflexivity.
  - destruct (digit_val c) as [d|] eqn:E; [|reflexivity]. apply digit_val_iff in E. destruct (N4 d E).
Qed.

(** Numbers: exactly the decimal numerals, read as the nearest float, and the names of
    the infinities and of NaN. *)
Theorem C59_numbers s x : parse_f64 s = Some x <-> float_text s x.
Proof.
  unfold parse_f64. split.
  - destruct (parse_dec s) as [[[neg m] e]|] eqn:Ep.
    + intros E. injection E as <-. apply (xt_decimal s neg (dval neg m e)); [apply decimal_text_parts; eauto|apply round_dec_nearest].
    + destruct (parse_sign s) as [neg r] eqn:Es. destruct (sign_any _ _ _ Es) as (sg & Hs & ->).
      destruct (String.eqb_spec (lower_s r) "inf") as [E1|_]; cbn [orb].
      { intros E. injection E as <-. apply (xt_inf sg neg "inf"); auto. apply lower_spells; [exact low_inf|exact E1]. }
      destruct (String.eqb_spec (lower_s r) "infinity") as [E1|_].
      { intros E. injection E as <-. apply (xt_inf sg neg "infinity"); auto. apply lower_spells; [exact low_infinity|exact E1]. }
      destruct (String.eqb_spec (lower_s r) "nan") as [E1|_]; [|discriminate].
      intros E. injection E as <-. apply (xt_nan sg neg); auto. apply lower_spells; [exact low_nan|exact E1].
  - intros [t neg r y Hd Hn|sg neg w t Hs Hw Hww|sg neg t Hs Hw].
    + apply decimal_text_parts in Hd as (m & e & -> & ->). f_equal. exact (nearest_unique _ _ _ _ (round_dec_nearest neg m e) Hn).
    + assert (Hlow : all_chars low w) by (destruct Hww as [->| ->]; [exact low_inf|exact low_infinity]).
      destruct (letter_spelled t w Hw Hlow) as (c & r & -> & Hc); [destruct Hww as [->| ->]; discriminate|].
      rewrite (letter_no_dec sg neg c r Hs Hc). destruct (letter_no_sign c Hc) as (N1 & N2 & _). rewrite (sign_on sg neg _ Hs) by auto.
      rewrite (proj2 (lower_spells _ w Hlow) Hw). destruct Hww as [->| ->]; reflexivity.
    + destruct (letter_spelled t "nan" Hw low_nan) as (c & r & -> & Hc); [discriminate|].
      rewrite (letter_no_dec sg neg c r Hs Hc). destruct (letter_no_sign c Hc) as (N1 & N2 & _). rewrite (sign_on sg neg _ Hs) by auto.
      rewrite (proj2 (lower_spells _ "nan" low_nan) Hw). reflexivity.
Qed.

(** ** Written numbers *)
Lemma digit_char_digit d : (d < 10)%N -> digit (digit_char d) d.
Proof. intros Hd. apply digit_val_iff, digit_val_char, Hd. Qed.
Lemma pdigits_digits k : forall n, exists ds, digits (pdigits k n) ds /\ length ds = k /\ dvalue ds = (n mod 10 ^ N.of_nat k)%N.
Proof.
  induction k as [|k IH]; intros n.
  - exists []. split; [constructor|]. split; [reflexivity|]. change (10 ^ N.of_nat 0)%N with 1%N. rewrite N.mod_1_r. reflexivity.
  - destruct (IH (n / 10)%N) as (ds & Hd & Hl & Hv). exists (ds ++ [n mod 10])%N. cbn [pdigits].
    assert (H10 : (n mod 10 < 10)%N) by (apply N.mod_upper_bound; discriminate).
    split; [apply digits_app; [exact Hd|repeat constructor; apply (digit_char_digit _ H10)]|]. split; [rewrite app_length; cbn; lia|].
    rewrite dvalue_app, Hv. cbn [dvalue length]. change (10 ^ N.of_nat 0)%N with 1%N. change (10 ^ N.of_nat 1)%N with 10%N.
    rewrite Nat2N.inj_succ, N.pow_succ_r', N.mod_mul_r by (try discriminate; apply N.pow_nonzero; discriminate). lia.
Qed.
Lemma digits_small t ds : digits t ds -> Forall (fun d => d < 10)%N ds.
Proof. unfold digits. induction 1 as [|c d l ds [Hd _] _ IH]; constructor; auto. Qed.
Lemma dvalue_lt ds : Forall (fun d => d < 10)%N ds -> (dvalue ds < 10 ^ N.of_nat (length ds))%N.
Proof.
  induction 1 as [|d r Hd Hr IH]; [reflexivity|]. cbn [dvalue length]. rewrite Nat2N.inj_succ, N.pow_succ_r'. nia.
Qed.
Lemma dec_plain n : plain_digits (dec n) n.
Proof.
  unfold dec. destruct (pdigits_digits (ndig n) n) as (ds & Hd & Hl & Hv). destruct (ndig_spec n) as [S1 S2].
  rewrite N.mod_small in Hv by exact S1. exists ds. split; [exact Hd|]. split; [exact Hv|].
  destruct ds as [|d r]; [pose proof (ndig_pos n); cbn in Hl; lia|].
  destruct (N.eq_dec d 0) as [->|Hd0]; [|right; eauto]. left.
  destruct S2 as [S2|S2].
  - rewrite S2 in Hl. destruct r; [reflexivity|discriminate].
  - cbn [dvalue] in Hv. rewrite N.mul_0_l, N.add_0_l in Hv. cbn [length] in Hl.
    assert (Hlt : (dvalue r < 10 ^ N.of_nat (length r))%N).
    { apply digits_small in Hd. inversion Hd; subst. apply dvalue_lt. assumption. }
    replace (ndig n - 1)%nat with (length r) in S2 by lia. lia.
Qed.
Lemma dec_Z_sign z : exists sg neg, sign_text sg neg /\ sg <> "+" /\ exists tz, dec_Z z = (sg ++ tz)%string /\ plain_digits tz (Z.abs_N z) /\ (neg = true <-> (z < 0)%Z).
Proof.
  unfold dec_Z. destruct (Z.ltb_spec z 0) as [Hz|Hz].
  - exists "-", true. split; [constructor|]. split; [discriminate|]. exists (dec (Z.abs_N z)). split; [reflexivity|]. split; [apply dec_plain|]. tauto.
  - exists "", false. split; [constructor|]. split; [discriminate|]. exists (dec (Z.abs_N z)). split; [reflexivity|]. split; [apply dec_plain|]. split; [discriminate|lia].
Qed.
Lemma rhe_near a b k : b <> 0%N -> Rabs (NR (round_half_even a b) - NR a / NR b) <= Rabs (NR k - NR a / NR b) /\
  (Rabs (NR (round_half_even a b) - NR a / NR b) = Rabs (NR k - NR a / NR b) -> k = round_half_even a b \/ N.even (round_half_even a b) = true).
Proof.
  intros Hb. pose proof (round_half_even_val a b Hb) as V. set (n := round_half_even a b) in *. set (v := NR a / NR b) in *.
  destruct (N.eq_dec k n) as [->|Hk]; [split; [lra|auto]|].
  assert (D : / 2 <= Rabs (NR k - v)).
  { assert (Hd : 1 <= Rabs (NR k - NR n)).
    { unfold NR. rewrite <- minus_IZR, <- abs_IZR. apply (IZR_le 1). lia. }
    assert (Rabs (NR k - NR n) <= Rabs (NR k - v) + Rabs (NR n - v)).
    { replace (NR k - NR n) with ((NR k - v) + - (NR n - v)) by lra. rewrite <- (Rabs_Ropp (NR n - v)). apply Rabs_triang. }
    lra. }
  split; [lra|]. intros E. right. assert (Hv : Rabs (NR n - v) = / 2) by lra.
  pose proof (NR_pos b Hb) as P. unfold n, round_half_even in *.
  assert (Ea : NR a = NR b * NR (a / b) + NR (a mod b)) by (rewrite <- NR_mul, <- NR_add; f_equal; apply N.div_mod; exact Hb).
  assert (Hm : (a mod b < b)%N) by (apply N.mod_lt; exact Hb).
  assert (Ev : v = NR (a / b) + NR (a mod b) / NR b) by (unfold v; rewrite Ea; field; lra).
  set (q := (a / b)%N) in *. set (r := (a mod b)%N) in *.
  destruct (N.ltb_spec b (2 * r)) as [H1|H1]; cbn [orb] in *.
  - exfalso. apply NR_lt in H1. rewrite NR_mul in H1. change (NR 2) with 2 in H1. apply NR_lt in Hm.
    assert (F : / 2 < NR r / NR b < 1). { split; [apply Rmult_lt_reg_r with (NR b); [exact P|]; unfold Rdiv; rewrite Rmult_assoc, Rinv_l by lra; lra|apply div_lt_iff; lra]. }
    rewrite Ev, NR_add in Hv. change (NR 1) with 1 in Hv. rewrite Rabs_pos_eq in Hv by lra. lra.
  - destruct (N.eqb_spec (2 * r) b) as [H2|H2]; cbn [andb].
    + destruct (N.odd q) eqn:Eo; [|rewrite <- N.negb_odd, Eo; reflexivity]. rewrite N.add_1_r, N.even_succ. exact Eo.
    + exfalso. assert (H3 : (2 * r < b)%N) by lia. apply NR_lt in H3. rewrite NR_mul in H3. change (NR 2) with 2 in H3. pose proof (NR_nonneg r) as Nr.
      assert (F : 0 <= NR r / NR b < / 2). { split; [apply div_le_iff; lra|apply div_lt_iff; [exact P|]; lra]. }
      cbn [andb] in Hv. rewrite Ev in Hv. replace (NR q - (NR q + NR r / NR b)) with (- (NR r / NR b)) in Hv by lra. rewrite Rabs_Ropp, Rabs_pos_eq in Hv by lra. lra.
Qed.
Lemma eleven_lt n k z j : (10 ^ 10 <= k)%N -> (n < 10 ^ 11)%N -> (z < j)%Z -> NR n * powerRZ 10 z < NR k * powerRZ 10 j.
Proof.
  intros Hk Hn Hz. apply Rlt_le_trans with (NR (10 ^ 11) * powerRZ 10 z).
  - apply Rmult_lt_compat_r; [apply p10_pos|]. apply NR_lt. exact Hn.
  - apply Rle_trans with (NR (10 ^ 10) * powerRZ 10 j).
    + rewrite <- p10_10, <- p10_11, <- !p10_add. apply p10_le. lia.
    + apply Rmult_le_compat_r; [left; apply p10_pos|]. apply NR_le. exact Hk.
Qed.
Lemma eleven_unique n k z j : (10 ^ 10 <= n < 10 ^ 11)%N -> (10 ^ 10 <= k < 10 ^ 11)%N -> NR n * powerRZ 10 z = NR k * powerRZ 10 j -> k = n /\ j = z.
Proof.
  intros Hn Hk E. destruct (Z.lt_trichotomy z j) as [H1|[H1|H1]].
  - pose proof (eleven_lt n k z j (proj1 Hk) (proj2 Hn) H1). lra.
  - subst j. split; [|reflexivity]. apply NR_inj. pose proof (p10_pos z). apply Rmult_eq_reg_r with (powerRZ 10 z); lra.
  - pose proof (eleven_lt k n j z (proj1 Hn) (proj2 Hk) H1). lra.
Qed.
Lemma sci_nearest a b : a <> 0%N -> b <> 0%N -> let '(n, d) := sci_digits a b in nearest11 (NR a / NR b) n d.
Proof.
  intros Ha Hb. pose proof (sci_digits_val a b Ha Hb) as V. pose proof (sci_digits_round a b Ha Hb) as R.
  assert (Ev : let '(a', b') := scale10 a b (10 - exp10 a b) in N.even (round_half_even a' b') = true -> N.even (fst (sci_digits a b)) = true).
  { unfold sci_digits. fold (exp10 a b). cbv zeta. destruct (scale10 a b (10 - exp10 a b)) as [a' b'].
    destruct (N.eqb_spec (round_half_even a' b') (10 ^ 11)); cbn [fst]; auto. }
  destruct (exp10_val a b Ha Hb) as [L U]. set (e := exp10 a b) in *.
  pose proof (scale10_val a b (10 - e) Hb) as S. destruct (scale10 a b (10 - e)) as [a' b']. destruct S as [Hb' E].
  destruct (sci_digits a b) as [n d]. destruct V as (Hn & _). destruct R as (Rn & _). cbn [fst] in Ev.
  set (v := NR a / NR b) in *. set (n0 := round_half_even a' b') in *.
  pose proof (p10_pos (e - 10)) as P. set (u := powerRZ 10 (e - 10)) in *.
  assert (E1 : NR a' / NR b' = v / u).
  { rewrite E. unfold u, Rdiv. rewrite <- p10_opp. do 2 f_equal. lia. }
  assert (Far : forall m, Rabs (NR m * u - v) = Rabs (NR m - NR a' / NR b') * u).
  { intros m. rewrite E1. rewrite <- (Rabs_pos_eq u) at 3 by lra. rewrite <- Rabs_mult. f_equal. field. lra. }
  split; [exact Hn|]. intros k j Hk far. unfold far; clear far. change natural with NR. rewrite Rn.
  destruct (Z_lt_le_dec j e) as [Hj|Hj].
  - assert (Hlow : NR k * powerRZ 10 (j - 10) < powerRZ 10 e).
    { apply Rlt_le_trans with (NR (10 ^ 11) * powerRZ 10 (j - 10)).
      - apply Rmult_lt_compat_r; [apply p10_pos|]. apply NR_lt. apply Hk.
      - rewrite <- p10_11, <- p10_add. apply p10_le. lia. }
    destruct (rhe_near a' b' (10 ^ 10) Hb') as [N1 _]. fold n0 in N1.
    apply (Rmult_le_compat_r u) in N1; [|lra]. rewrite <- !Far in N1.
    assert (E2 : NR (10 ^ 10) * u = powerRZ 10 e) by (rewrite <- p10_10; unfold u; rewrite <- p10_add; f_equal; lia).
    rewrite E2 in N1. rewrite (Rabs_left1 (powerRZ 10 e - v)) in N1 by lra. rewrite (Rabs_left1 (NR k * powerRZ 10 (j - 10) - v)) by lra.
    split; [lra|]. intros Q. exfalso. lra.
  - set (K := (k * 10 ^ Z.to_N (j - e))%N).
    assert (EK : NR k * powerRZ 10 (j - 10) = NR K * u).
    { unfold K, u. rewrite NR_mul, <- p10_N, Rmult_assoc, <- p10_add. do 2 f_equal. lia. }
    rewrite EK. destruct (rhe_near a' b' K Hb') as [N1 N2]. fold n0 in N1, N2. rewrite !Far. split; [apply Rmult_le_compat_r; lra|].
    intros Q. apply Rmult_eq_reg_r in Q; [|lra]. destruct (N2 Q) as [Hq|Hq]; [left|right; auto].
    assert (Heq : NR n * powerRZ 10 (d - 10) = NR k * powerRZ 10 (j - 10)) by (rewrite Rn, EK, Hq; reflexivity).
    destruct (eleven_unique n k (d - 10) (j - 10) Hn Hk Heq) as [Q1 Q2]. split; [exact Q1|lia].
Qed.
Lemma sci_scientific n z v : (n < 10 ^ 11)%N -> (v = 0 /\ n = 0%N /\ z = 0%Z) \/ (0 < v /\ nearest11 v n z) -> scientific (sci_text n z) v.
Proof.
  intros Hn Hv. rewrite sci_text_eq. destruct (pdigits_digits 10 n) as (ds & Hd & Hl & Hval).
  assert (H10 : (n / 10 ^ 10 mod 10 < 10)%N) by (apply N.mod_upper_bound; discriminate).
  exists (digit_char (n / 10 ^ 10 mod 10)), (pdigits 10 n), ((n / 10 ^ 10 mod 10)%N :: ds), (dec_Z z), n, z. cbn [hd tl length].
  split; [apply digit_char_digit, H10|]. split; [exact Hd|]. split; [rewrite Hl; reflexivity|]. split.
  - cbn [dvalue]. rewrite Hl, Hval. change (N.of_nat 10) with 10%N. rewrite N.mod_small by (apply N.div_lt_upper_bound; [discriminate|exact Hn]).
    rewrite N.mul_comm. symmetry. apply N.div_mod. discriminate.
  - split; [reflexivity|]. split; [apply dec_Z_sign|exact Hv].
Qed.
(** Numbers are written with eleven significant digits, rounded to nearest even. *)
Theorem C59_written x : written x (fmt_e10 x).
Proof.
  destruct x as [s|s| |s m e]; cbn [written fmt_e10].
  - exists (sci_text 0 0). split; [destruct s; reflexivity|]. apply sci_scientific; [reflexivity|auto].
  - destruct s; reflexivity.
  - reflexivity.
  - pose proof (ratio_val m e) as R. destruct (ratio m e) as [a b]. destruct R as (Ha & Hb & R).
    pose proof (sci_nearest a b Ha Hb) as Hn. destruct (sci_digits a b) as [n d].
    exists (sci_text n d). split; [destruct s; reflexivity|]. apply sci_scientific; [apply Hn|]. right.
    replace (Rabs (float_value (S754_finite s m e))) with (NR a / NR b); [split; [|exact Hn]|].
    + pose proof (NR_pos a Ha). pose proof (NR_pos b Hb). apply Rdiv_lt_0_compat; lra.
    + rewrite float_value_fval. cbn [fval]. rewrite sgn_abs; [exact R|]. apply Rmult_le_pos; [apply IZR_le; lia|left; apply p2_pos].
Qed.
(** The index in a name is written plainly. *)
Theorem C59_index n : plain_digits (dec_nat n) (N.of_nat n).
Proof. apply dec_plain. Qed.

Theorem C59_first_line s l rest : cut_line s = (l, rest) <-> first_line s l rest.
Proof.
  split.
  - revert l rest. induction s as [|c s IH]; cbn [cut_line]; intros l rest E.
    + injection E as <- <-. exists "". split; [constructor|right; auto].
    + destruct (Ascii.eqb_spec c nl) as [->|Hc].
      * injection E as <- <-. exists "". split; [constructor|left; auto].
      * destruct (cut_line s) as [l1 r1]. injection E as <- <-. destruct (IH l1 r1 eq_refl) as (l0 & Hl & Hc').
        exists (String c l0). split; [constructor; [intros Q; apply Hc, code_inj, Q|exact Hl]|].
        destruct Hc' as [[-> ->]|(-> & -> & ->)]; [left; auto|right; auto].
  - intros (l0 & Hl & [[-> ->]|(-> & -> & ->)]); apply no_nl_all in Hl.
    + rewrite app_assoc_s. exact (cut_line_nl l0 rest Hl).
    + exact (cut_line_end l0 Hl).
Qed.

(** ** Solution files *)
Section File.
  Context `{Num F}.
  Theorem C59_line l r : @says F TextF l r <-> line_says l r.
  Proof.
    unfold says, line_says. rewrite C59_utf8. split; intros [Hu (w0 & name & value & mul & more & a & idx & rest & v & m & Hw & Hp & Hv & Hm & Hr)]; (split; [exact Hu|]);
      exists w0, name, value, mul, more, a, idx, rest, v, m.
    - split; [apply C59_words, Hw|]. split; [apply C59_pieces, Hp|]. split; [apply C59_numbers, Hv|]. split; [apply C59_numbers, Hm|].
      destruct r as [i v' m'|k m'].
      + destruct Hr as (-> & Hi & -> & ->). left. split; [reflexivity|]. exists i. split; [apply C59_integers, Hi|reflexivity].
      + destruct Hr as (-> & Hi & ->). right. split; [reflexivity|]. exists k. split; [apply C59_integers, Hi|reflexivity].
    - split; [apply C59_words, Hw|]. split; [apply C59_pieces, Hp|]. split; [apply C59_numbers, Hv|]. split; [apply C59_numbers, Hm|].
      destruct Hr as [(-> & i & Hi & ->)|(-> & k & Hk & ->)]; (split; [reflexivity|]); (split; [apply C59_integers; assumption|]); auto.
  Qed.
  Lemma header_word cbc l : header cbc l = Solved <-> exists more, made_of l ((if cbc then "Optimal" else "optimal") :: more).
  Proof.
    unfold header. split.
    - destruct (words l) as [|w ws] eqn:E; [discriminate|]. destruct (String.eqb_spec w (if cbc then "Optimal" else "optimal")) as [->|_].
      + intros _. exists ws. apply C59_words, E.
      + destruct (w =? _)%string; discriminate.
    - intros [more Hm]. apply C59_words in Hm. rewrite Hm, String.eqb_refl. reflexivity.
  Qed.
  (** A file is read as a solution exactly when its lines of results say one. *)
  Theorem C59_file cbc nx na text s :
    @read_sol_file F _ TextF (Some text) nx na cbc = Ok (Some (Solved, s)) <->
    exists ls rs, results_of cbc text ls /\ Forall2 line_says ls rs /\ Forall (in_range nx na) rs /\ s = listed nx na rs.
  Proof.
    rewrite C45_solved. unfold part1, part2, body, results_of, starts_with.
    assert (FF : forall ls rs, Forall2 (@says F TextF) ls rs <-> Forall2 line_says ls rs).
    { intros ls rs. split; induction 1; constructor; auto; apply C59_line; assumption. }
    split.
    - intros (U1 & Hh & U2 & rs & Hs & Hi & ->). apply header_word in Hh as [more Hm]. apply C59_utf8 in U1. apply C59_utf8 in U2.
      destruct (cut_line text) as [l1 rest] eqn:E1. cbn [fst snd] in *.
      exists (lines (if cbc then rest else snd (cut_line rest))), rs. split; [|split; [apply FF; exact Hs|auto]].
      exists rest, (if cbc then rest else snd (cut_line rest)). split; [|split].
      + exists l1, more. split; [apply C59_first_line, E1|auto].
      + destruct cbc; [reflexivity|]. exists (fst (cut_line rest)). split; [apply C59_first_line, surjective_pairing|exact U2].
      + apply C59_lines. reflexivity.
    - intros (ls & rs & (rest & rest' & (l & more & Hf & Hu & Hm) & Hr & Hl) & Hs & Hi & ->).
      apply C59_first_line in Hf. rewrite Hf. cbn [fst snd]. split; [apply C59_utf8, Hu|]. split; [apply header_word; eauto|].
      apply C59_lines in Hl. destruct cbc.
      + subst rest'. split; [reflexivity|]. exists rs. split; [apply FF; rewrite Hl; exact Hs|auto].
      + destruct Hr as (l2 & H2 & U2). apply C59_first_line in H2. rewrite H2. cbn [fst snd]. split; [apply C59_utf8, U2|].
        exists rs. split; [apply FF; rewrite Hl; exact Hs|auto].
  Qed.
  Lemma result_lines cbc text : forall ls, results_of cbc text ls <->
    utf8_valid (part1 text) = true /\ header cbc (part1 text) = Solved /\ utf8_valid (part2 cbc text) = true /\ ls = body cbc text.
  Proof.
    intros ls. unfold part1, part2, body, results_of, starts_with. split.
    - intros (rest & rest' & (l & more & Hf & Hu & Hm) & Hr & Hl).
      apply C59_first_line in Hf. rewrite Hf. cbn [fst snd]. split; [apply C59_utf8, Hu|]. split; [apply header_word; eauto|].
      apply C59_lines in Hl. destruct cbc.
      + subst rest'. auto.
      + destruct Hr as (l2 & H2 & U2). apply C59_first_line in H2. rewrite H2. cbn [fst snd]. split; [apply C59_utf8, U2|auto].
    - intros (U1 & Hh & U2 & ->). apply header_word in Hh as [more Hm]. apply C59_utf8 in U1. apply C59_utf8 in U2.
      destruct (cut_line text) as [l1 rest] eqn:E1. cbn [fst snd] in *.
      exists rest, (if cbc then rest else snd (cut_line rest)). split; [|split].
      + exists l1, more. split; [apply C59_first_line, E1|auto].
      + destruct cbc; [reflexivity|]. exists (fst (cut_line rest)). split; [apply C59_first_line, surjective_pairing|exact U2].
      + apply C59_lines. destruct cbc; reflexivity.
  Qed.
  (** The reader panics exactly on a line about an item the problem does not have, when all lines before
      are about items it has. *)
  Theorem C59_file_panic cbc nx na text e :
    @read_sol_file F _ TextF (Some text) nx na cbc = Panic e <->
    e = PIndex /\ exists pre rs l r post, results_of cbc text (pre ++ l :: post) /\ Forall2 line_says pre rs /\ Forall (in_range nx na) rs /\
      line_says l r /\ ~ in_range nx na r.
  Proof.
    rewrite C46_panic.
    assert (FF : forall ls rs, Forall2 (@says F TextF) ls rs <-> Forall2 line_says ls rs).
    { intros ls rs. split; induction 1; constructor; auto; apply C59_line; assumption. }
    split.
    - intros (-> & H1 & H2 & H3 & pre & rs & l & r & post & Eb & Hs & Hi & Hl & Hn). split; [reflexivity|].
      exists pre, rs, l, r, post. split; [apply result_lines; auto|]. split; [apply FF, Hs|]. split; [exact Hi|]. split; [apply C59_line, Hl|exact Hn].
    - intros (-> & pre & rs & l & r & post & Hr & Hs & Hi & Hl & Hn). apply result_lines in Hr as (H1 & H2 & H3 & Eb).
      repeat (split; auto). exists pre, rs, l, r, post. split; [auto|]. split; [apply FF, Hs|]. split; [exact Hi|]. split; [apply C59_line, Hl|exact Hn].
  Qed.
  (** Any other file that reports success is refused. *)
  Theorem C59_file_refused cbc nx na text ls : results_of cbc text ls ->
    (@read_sol_file F _ TextF (Some text) nx na cbc = Ok None <->
     exists pre rs l post, ls = pre ++ l :: post /\ Forall2 line_says pre rs /\ Forall (in_range nx na) rs /\ forall r, ~ line_says l r).
  Proof.
    intros Hr. apply result_lines in Hr as (H1 & H2 & H3 & ->). rewrite C45_error.
    assert (FF : forall ls rs, Forall2 (@says F TextF) ls rs <-> Forall2 line_says ls rs).
    { intros ls rs. split; induction 1; constructor; auto; apply C59_line; assumption. }
    split.
    - intros [E|[_ [E|(pre & rs & l & post & Eb & Hs & Hi & Hm)]]]; [congruence|congruence|].
      exists pre, rs, l, post. split; [exact Eb|]. split; [apply FF, Hs|]. split; [exact Hi|]. intros r Hl. apply (Hm r), C59_line, Hl.
    - intros (pre & rs & l & post & Eb & Hs & Hi & Hm). right. split; [exact H2|]. right. exists pre, rs, l, post. split; [exact Eb|]. split; [apply FF, Hs|]. split; [exact Hi|].
      intros r Hl. apply (Hm r), C59_line, Hl.
  Qed.
End File.

(** ** Concrete texts *)
Example C59_example_words : made_of "  1 x_10	 0.5 -2.5E0 " ["1"; "x_10"; "0.5"; "-2.5E0"] /\ pieces "_" "x_10" ["x"; "10"] /\
  integer_text "+10" 10 /\ ~ (exists n, integer_text "1x" n).
Proof.
  split; [apply C59_words; reflexivity|]. split; [apply C59_pieces; reflexivity|]. split; [apply C59_integers; reflexivity|].
  intros [n Hn]. apply C59_integers in Hn. discriminate.
Qed.
Example C59_example_numbers : float_text "-2.5E0" (S754_finite true 5629499534213120 (-51)) /\ float_text "-InFinity" (S754_infinity true) /\
  float_text "1e999" (S754_infinity false) /\ float_text ".5" (S754_finite false 4503599627370496 (-53)) /\
  (forall x, ~ float_text "." x) /\ (forall x, ~ float_text "1e" x) /\ (forall x, ~ float_text "0x1" x).
Proof.
  repeat split; try (apply C59_numbers; vm_compute; reflexivity); intros x Hx; apply C59_numbers in Hx; vm_compute in Hx; discriminate.
Qed.
Example C59_example_line : line_says "  1 x_1  0.5  -2.5e0" (RVar 1 (S754_finite false 4503599627370496 (-53)) (S754_finite true 5629499534213120 (-51))) /\
  (forall r, ~ line_says "  1 y_1  0.5  -2.5e0" r) /\ is_utf8 "é" /\ ~ is_utf8 (String "200" "") /\
  exists ls, results_of true c45_text ls /\ length ls = 3%nat.
Proof.
  split; [apply C59_line; apply line_record_says; vm_compute; reflexivity|]. split.
  { intros r Hr. apply C59_line in Hr. apply line_record_says in Hr. vm_compute in Hr. discriminate. }
  split; [apply C59_utf8; reflexivity|]. split; [intros Hu; apply C59_utf8 in Hu; discriminate|].
  eexists. split; [apply result_lines; repeat split; vm_compute; reflexivity|]. reflexivity.
Qed.
