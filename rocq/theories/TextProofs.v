(** Facts about text. *)
From Verif Require Import Base Text.
From Coq Require Import NArith.
Local Open Scope string_scope.
Local Open Scope list_scope.

(** No character of [s] satisfies [p]. *)
Fixpoint free (p : ascii -> bool) (s : string) : bool :=
  match s with EmptyString => true | String c r => negb (p c) && free p r end.
Definition no_ws (s : string) : bool := free is_ws s.
Definition no_nl (s : string) : bool := free (fun c => (c =? nl)%char) s.

Lemma free_app p a b : free p (a ++ b)%string = free p a && free p b.
Proof. induction a as [|c a IH]; cbn; auto. rewrite IH, andb_assoc. reflexivity. Qed.
Lemma free_impl (p q : ascii -> bool) s : (forall c, p c = true -> q c = true) -> free q s = true -> free p s = true.
Proof.
  intros Hpq. induction s as [|c s IH]; cbn; auto. rewrite !andb_true_iff, !negb_true_iff. intros [H1 H2]. split; auto.
  destruct (p c) eqn:E; auto. apply Hpq in E. congruence.
Qed.
Lemma app_assoc_s (a b c : string) : ((a ++ b) ++ c = a ++ (b ++ c))%string.
Proof. induction a; cbn; congruence. Qed.
Lemma app_nil_s (a : string) : (a ++ "" = a)%string.
Proof. induction a; cbn; congruence. Qed.

(** ** Words *)
Lemma wsplit_word w s : no_ws w = true -> wsplit (w ++ s) = (w ++ fst (wsplit s), snd (wsplit s))%string.
Proof.
  induction w as [|c w IH]; cbn; intros Hw; [destruct (wsplit s); reflexivity|].
  apply andb_true_iff in Hw as [Hc Hw]. rewrite (IH Hw). apply negb_true_iff in Hc. rewrite Hc. reflexivity.
Qed.
Lemma words_ws c s : is_ws c = true -> words (String c s) = words s.
Proof. intros Hc. unfold words. cbn. destruct (wsplit s). rewrite Hc. reflexivity. Qed.
Lemma words_word w c s : no_ws w = true -> w <> "" -> is_ws c = true -> words (w ++ String c s) = w :: words s.
Proof.
  intros Hw Hn Hc. unfold words. rewrite wsplit_word by auto. cbn. destruct (wsplit s) as [x xs]. rewrite Hc. cbn [fst snd].
  rewrite app_nil_s. destruct w; [congruence|]. reflexivity.
Qed.
Lemma words_last w : no_ws w = true -> w <> "" -> words w = [w].
Proof.
  intros Hw Hn. unfold words. rewrite <- (app_nil_s w), wsplit_word by auto. cbn. rewrite app_nil_s.
  destruct w; [congruence|]. reflexivity.
Qed.
(** A word followed by anything starting with whitespace. *)
Definition starts_ws (s : string) : bool := match s with String c _ => is_ws c | _ => false end.
Lemma words_cons w s : no_ws w = true -> w <> "" -> starts_ws s = true -> words (w ++ s) = w :: words s.
Proof.
  intros Hw Hn Hs. destruct s as [|c s]; [discriminate|]. rewrite words_word by auto. rewrite (words_ws c s) by auto. reflexivity.
Qed.
Lemma words_app a b : starts_ws b = true -> words (a ++ b) = words a ++ words b.
Proof.
  intros Hb. destruct b as [|c b]; [discriminate|]. cbn in Hb.
  assert (G : wsplit (a ++ String c b) = (fst (wsplit a), (snd (wsplit a) ++ words b)%list)).
  { induction a as [|d a IH]; cbn [append wsplit].
    - unfold words. destruct (wsplit b). rewrite Hb. reflexivity.
    - rewrite IH. destruct (wsplit a) as [w ws]. cbn [fst snd]. destruct (is_ws d); [|reflexivity]. destruct w; reflexivity. }
  rewrite (words_ws c b Hb). unfold words at 1 2. rewrite G. destruct (wsplit a) as [w ws]. cbn [fst snd]. destruct w; reflexivity.
Qed.
Lemma words_nls s : words (s ++ nls) = words s.
Proof. rewrite words_app by reflexivity. apply app_nil_r. Qed.
Lemma words_nls_app s t : words (s ++ nls ++ t) = words s ++ words t.
Proof. rewrite words_app by reflexivity. f_equal. apply words_ws. reflexivity. Qed.

(** ** Lines *)
Lemma cut_line_nl l r : no_nl l = true -> cut_line (l ++ nls ++ r) = ((l ++ nls)%string, r).
Proof.
  induction l as [|c l IH]; intros Hl; [reflexivity|]. cbn [no_nl free] in Hl. apply andb_true_iff in Hl as [Hc Hl]. apply negb_true_iff in Hc.
  cbn [append cut_line]. rewrite Hc. rewrite (IH Hl). reflexivity.
Qed.
Lemma cut_line_end l : no_nl l = true -> cut_line l = (l, "").
Proof.
  induction l as [|c l IH]; intros Hl; [reflexivity|]. cbn [no_nl free] in Hl. apply andb_true_iff in Hl as [Hc Hl]. apply negb_true_iff in Hc.
  cbn [append cut_line]. rewrite Hc. rewrite (IH Hl). reflexivity.
Qed.
Lemma split_on_free sep l : free (fun c => (c =? sep)%char) l = true -> split_on sep l = [l].
Proof.
  induction l as [|c l IH]; cbn; intros Hl; [reflexivity|]. apply andb_true_iff in Hl as [Hc Hl]. apply negb_true_iff in Hc.
  rewrite Hc, (IH Hl). reflexivity.
Qed.
Lemma split_on_sep sep l r : free (fun c => (c =? sep)%char) l = true ->
  split_on sep (l ++ String sep r) = l :: split_on sep r.
Proof.
  induction l as [|c l IH]; cbn; intros Hl; [rewrite Ascii.eqb_refl; reflexivity|].
  apply andb_true_iff in Hl as [Hc Hl]. apply negb_true_iff in Hc. rewrite Hc, (IH Hl). reflexivity.
Qed.
Lemma split_on_nonnil sep s : split_on sep s <> [].
Proof. destruct s as [|c s]; cbn; [discriminate|]. destruct (c =? sep)%char; [discriminate|]. destruct (split_on sep s); discriminate. Qed.
Definition unlines (ls : list string) : string := String.concat "" (map (fun l => (l ++ nls)%string) ls).
Lemma concat_cons a l : String.concat "" (a :: l) = (a ++ String.concat "" l)%string.
Proof. cbn. destruct l; cbn; [symmetry; apply app_nil_s|reflexivity]. Qed.
Lemma concat_app a l : String.concat "" (a ++ l) = (String.concat "" a ++ String.concat "" l)%string.
Proof. induction a as [|x a IH]; [reflexivity|]. rewrite <- app_comm_cons, !concat_cons, IH, app_assoc_s. reflexivity. Qed.
Lemma split_unlines ls : forallb no_nl ls = true -> split_on nl (unlines ls) = ls ++ [""].
Proof.
  induction ls as [|l ls IH]; intros Hf; [reflexivity|]. cbn in Hf. apply andb_true_iff in Hf as [Hl Hf].
  unfold unlines. cbn [map]. rewrite concat_cons. fold (unlines ls). rewrite app_assoc_s. cbn [nls append].
  rewrite split_on_sep by exact Hl. rewrite (IH Hf). reflexivity.
Qed.
Lemma lines_unlines ls : forallb no_nl ls = true -> lines (unlines ls) = ls.
Proof.
  intros Hf. unfold lines. rewrite (split_unlines ls Hf). rewrite last_last. apply removelast_last.
Qed.
(** A last line without line feed. *)
Lemma split_unlines_last ls l : forallb no_nl ls = true -> no_nl l = true -> split_on nl (unlines ls ++ l) = ls ++ [l].
Proof.
  induction ls as [|a ls IH]; intros Hf Hl; [apply split_on_free; exact Hl|]. cbn in Hf. apply andb_true_iff in Hf as [Ha Hf].
  unfold unlines. cbn [map]. rewrite concat_cons. fold (unlines ls). rewrite !app_assoc_s. cbn [nls append].
  rewrite split_on_sep by exact Ha. rewrite (IH Hf Hl). reflexivity.
Qed.
Lemma lines_unlines_last ls l : forallb no_nl ls = true -> no_nl l = true -> l <> "" -> lines (unlines ls ++ l) = ls ++ [l].
Proof.
  intros Hf Hl Hn. unfold lines. rewrite (split_unlines_last ls l Hf Hl), last_last. destruct l; [congruence|reflexivity].
Qed.

(** ** Digits *)
Lemma digit_val_char d : (d < 10)%N -> digit_val (digit_char d) = Some d.
Proof.
  intros Hd. assert (G : forall d, (d < 10)%N -> In d [0;1;2;3;4;5;6;7;8;9]%N).
  { intros x Hx. cbn. lia. }
  specialize (G d Hd). cbn in G. repeat destruct G as [<-|G]; try reflexivity. destruct G.
Qed.
Lemma digit_char_props d : (d < 10)%N ->
  is_ws (digit_char d) = false /\ (digit_char d =? "_")%char = false /\ (digit_char d =? "+")%char = false /\
  (digit_char d =? "-")%char = false /\ (digit_char d =? ".")%char = false /\ (digit_char d =? "e")%char = false /\
  (digit_char d =? nl)%char = false /\ (digit_char d =? "E")%char = false /\ (digit_char d =? ":")%char = false.
Proof.
  intros Hd. assert (G : In d [0;1;2;3;4;5;6;7;8;9]%N) by (cbn; lia).
  cbn in G. repeat destruct G as [<-|G]; try (repeat split; reflexivity). destruct G.
Qed.

Lemma take_digits_app acc cnt k n s :
  take_digits acc cnt (pdigits k n ++ s) = take_digits (acc * 10 ^ N.of_nat k + n mod 10 ^ N.of_nat k) (k + cnt) s.
Proof.
  revert acc cnt n s. induction k as [|k IH]; intros acc cnt n s.
  - cbn [pdigits append plus N.of_nat]. rewrite N.pow_0_r, N.mod_1_r. f_equal. lia.
  - cbn [pdigits]. rewrite app_assoc_s. rewrite IH. cbn [append take_digits].
    rewrite digit_val_char by (apply N.mod_upper_bound; discriminate).
    assert (Hp : (10 ^ N.of_nat k <> 0)%N) by (apply N.pow_nonzero; discriminate).
    replace (S k + cnt) with (S (k + cnt)) by lia.
    rewrite Nat2N.inj_succ, N.pow_succ_r', N.mod_mul_r by (auto; discriminate).
    f_equal. ring.
Qed.
Lemma take_digits_stop acc cnt s : match s with String c _ => digit_val c = None | _ => True end ->
  take_digits acc cnt s = (cnt, acc, s).
Proof. destruct s as [|c s]; cbn; auto. intros ->. reflexivity. Qed.

Lemma ndig_pos n : 1 <= ndig n.
Proof. unfold ndig. generalize (N.size_nat n). intros f. revert n. induction f; intros n; cbn; auto. destruct (n <? 10)%N; lia. Qed.
Lemma pow2_10 f : (2 ^ N.of_nat (S f) <= 10 * 2 ^ N.of_nat f)%N.
Proof. rewrite Nat2N.inj_succ, N.pow_succ_r'. apply N.mul_le_mono_r. discriminate. Qed.
Lemma ndig_aux_spec f n : (n < 2 ^ N.of_nat f)%N ->
  (n < 10 ^ N.of_nat (ndig_aux f n))%N /\ (ndig_aux f n = 1 \/ (10 ^ N.of_nat (ndig_aux f n - 1) <= n)%N).
Proof.
  revert n; induction f as [|f IH]; intros n Hn; cbn [ndig_aux].
  - cbn in Hn. split; [cbn; lia|auto].
  - destruct (n <? 10)%N eqn:E.
    + apply N.ltb_lt in E. split; [cbn; lia|auto].
    + apply N.ltb_ge in E. destruct (IH (n / 10)%N) as [A B].
      { apply N.div_lt_upper_bound; [discriminate|]. exact (N.lt_le_trans _ _ _ Hn (pow2_10 f)). }
      split.
      * rewrite Nat2N.inj_succ, N.pow_succ_r'. pose proof (N.mod_upper_bound n 10 ltac:(discriminate)).
        pose proof (N.div_mod n 10 ltac:(discriminate)) as D.
        revert A H D. generalize (10 ^ N.of_nat (ndig_aux f (n / 10)))%N (n / 10)%N (n mod 10)%N. clear. intros. lia.
      * right. cbn [Nat.sub]. rewrite Nat.sub_0_r. destruct B as [B|B].
        -- rewrite B. cbn. lia.
        -- assert (H1 : 1 <= ndig_aux f (n / 10)).
           { generalize (n / 10)%N. clear. intros n. destruct f; cbn; auto. destruct (n <? 10)%N; lia. }
           replace (ndig_aux f (n / 10)) with (S (ndig_aux f (n / 10) - 1)) by lia.
           rewrite Nat2N.inj_succ, N.pow_succ_r'. pose proof (N.mul_div_le n 10 ltac:(discriminate)) as D.
           revert B D. generalize (10 ^ N.of_nat (ndig_aux f (n / 10) - 1))%N (n / 10)%N. clear. intros. lia.
Qed.
Lemma size_nat_gt n : (n < 2 ^ N.of_nat (N.size_nat n))%N.
Proof.
  destruct n as [|p]; [reflexivity|]. cbn [N.size_nat]. induction p as [p IH|p IH|]; cbn [Pos.size_nat]; rewrite ?Nat2N.inj_succ, ?N.pow_succ_r'; lia.
Qed.
Lemma ndig_spec n : (n < 10 ^ N.of_nat (ndig n))%N /\ (ndig n = 1 \/ (10 ^ N.of_nat (ndig n - 1) <= n)%N).
Proof. apply ndig_aux_spec, size_nat_gt. Qed.

Lemma take_digits_dec n s : match s with String c _ => digit_val c = None | _ => True end ->
  take_digits 0 0 (dec n ++ s) = (ndig n, n, s).
Proof.
  intros Hs. unfold dec. rewrite take_digits_app, take_digits_stop by exact Hs.
  rewrite N.mul_0_l, N.add_0_l, Nat.add_0_r, N.mod_small by apply ndig_spec. reflexivity.
Qed.
Lemma pdigits_free (p : ascii -> bool) k n : (forall d, (d < 10)%N -> p (digit_char d) = false) -> free p (pdigits k n) = true.
Proof.
  intros Hp. revert n; induction k as [|k IH]; intros n; [reflexivity|]. cbn [pdigits]. rewrite free_app, IH. cbn.
  rewrite Hp by (apply N.mod_upper_bound; discriminate). reflexivity.
Qed.
Lemma dec_free (p : ascii -> bool) n : (forall d, (d < 10)%N -> p (digit_char d) = false) -> free p (dec n) = true.
Proof. apply pdigits_free. Qed.
Lemma dec_no_ws n : no_ws (dec n) = true.
Proof. apply dec_free. intros d Hd. apply digit_char_props. exact Hd. Qed.
Lemma pdigits_head k n : k <> 0 -> exists d r, (d < 10)%N /\ pdigits k n = String (digit_char d) r.
Proof.
  revert n; induction k as [|k IH]; intros n Hk; [congruence|]. destruct k as [|k].
  - exists (n mod 10)%N, "". split; [apply N.mod_upper_bound; discriminate|]. reflexivity.
  - destruct (IH (n / 10)%N) as (d & r & Hd & E); [discriminate|]. cbn [pdigits] in *. rewrite E.
    exists d, (r ++ String (digit_char (n mod 10)) "")%string. split; [exact Hd|reflexivity].
Qed.
Lemma dec_head n : exists d r, (d < 10)%N /\ dec n = String (digit_char d) r.
Proof. apply pdigits_head. pose proof (ndig_pos n). lia. Qed.
Lemma dec_inj a b : dec a = dec b -> a = b.
Proof.
  intros E. pose proof (take_digits_dec a "" I) as A. pose proof (take_digits_dec b "" I) as B.
  rewrite E in A. rewrite A in B. congruence.
Qed.
Lemma dec_nat_inj a b : dec_nat a = dec_nat b -> a = b.
Proof. intros E. apply dec_inj in E. lia. Qed.
Lemma parse_usize_dec n : (N.of_nat n < 2 ^ 64)%N -> parse_usize (dec_nat n) = Some n.
Proof.
  intros Hn. unfold parse_usize, dec_nat. destruct (dec_head (N.of_nat n)) as (d & r & Hd & E).
  assert (Ed : (match dec (N.of_nat n) with String c r0 => if (c =? "+")%char then r0 else dec (N.of_nat n) | EmptyString => dec (N.of_nat n) end) = dec (N.of_nat n)).
  { rewrite E. destruct (digit_char_props d Hd) as (_ & _ & -> & _). reflexivity. }
  rewrite Ed. rewrite <- (app_nil_s (dec (N.of_nat n))), take_digits_dec by exact I.
  pose proof (ndig_pos (N.of_nat n)). destruct (ndig (N.of_nat n)); [lia|].
  apply N.ltb_lt in Hn. rewrite Hn, Nat2N.id. reflexivity.
Qed.
