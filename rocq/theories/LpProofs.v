(** The text written for a problem, read back. *)
From Verif Require Import Base Num Matrix Problem Text LpFile LpSpec TextProofs FmtProofs FloatProofs Properties_Num
  NodeInd MatSpec MatrixProofs SumDupProofs CsrProofs Properties_Matrix.
From Coq Require Import NArith Floats.SpecFloat.
Local Open Scope string_scope.
Local Open Scope list_scope.

(** ** Closed pieces of text: empty or ending with a line feed *)
Definition closed (s : string) : Prop := s = "" \/ exists t, s = (t ++ nls)%string.
Lemma closed_nil : closed "". Proof. left; reflexivity. Qed.
Lemma closed_line l : closed (line l).
Proof. right. exists (String.concat "" l). reflexivity. Qed.
Lemma closed_app a b : closed a -> closed b -> closed (a ++ b)%string.
Proof.
  intros Ha [->|[t ->]]; [rewrite app_nil_s; exact Ha|]. right. exists (a ++ t)%string. rewrite app_assoc_s. reflexivity.
Qed.
Lemma closed_concat l : Forall closed l -> closed (String.concat "" l).
Proof. induction 1; [apply closed_nil|]. rewrite concat_cons. apply closed_app; auto. Qed.
Lemma words_closed a b : closed a -> words (a ++ b)%string = words a ++ words b.
Proof.
  intros [->|[t ->]]; [reflexivity|]. rewrite app_assoc_s, words_nls_app, words_nls. reflexivity.
Qed.
Lemma words_concat l : Forall closed l -> words (String.concat "" l) = flat_map words l.
Proof. induction 1; [reflexivity|]. rewrite concat_cons, words_closed by assumption. cbn [flat_map]. f_equal. assumption. Qed.
Lemma words_line l : words (line l) = words (String.concat "" l).
Proof. apply words_nls. Qed.

(** A word between blanks. *)
Definition word (w : string) : Prop := no_ws w = true /\ w <> "".
Lemma words_sp s : words (String " " s) = words s.
Proof. apply words_ws. reflexivity. Qed.
Lemma words_wsp w s : word w -> words (w ++ String " " s) = w :: words s.
Proof. intros [H1 H2]. apply words_word; auto. Qed.
Lemma words_w w : word w -> words w = [w].
Proof. intros [H1 H2]. apply words_last; auto. Qed.
Lemma no_ws_app a b : no_ws (a ++ b) = no_ws a && no_ws b.
Proof. apply free_app. Qed.
Lemma word_xname j : word (xname j).
Proof. split; [|discriminate]. unfold xname. rewrite no_ws_app. unfold dec_nat. rewrite dec_no_ws. reflexivity. Qed.
Lemma word_clabel i : word (cname i ++ ":").
Proof. split; [|discriminate]. unfold cname. rewrite !no_ws_app. unfold dec_nat. rewrite dec_no_ws. reflexivity. Qed.

(** ** Names *)
Lemma all_chars_dec p n : (forall d, (d < 10)%N -> p (digit_char d) = true) -> all_chars p (dec n) = true.
Proof.
  intros Hp. unfold dec. generalize (ndig n). intros k. revert n. induction k as [|k IH]; intros n; [reflexivity|]. cbn [pdigits].
  assert (A : forall a b, all_chars p (a ++ b) = all_chars p a && all_chars p b).
  { induction a as [|c a IHa]; intros b; [reflexivity|]. cbn. rewrite IHa, andb_assoc. reflexivity. }
  rewrite A, IH. cbn. rewrite Hp by (apply N.mod_upper_bound; discriminate). reflexivity.
Qed.
Lemma digit_is_digit d : (d < 10)%N -> is_digit (digit_char d) = true.
Proof.
  intros Hd. assert (G : In d [0;1;2;3;4;5;6;7;8;9]%N) by (cbn; lia).
  cbn in G. repeat destruct G as [<-|G]; try reflexivity. destruct G.
Qed.
Lemma is_name_x j : is_name (xname j) = true.
Proof.
  unfold xname, dec_nat. cbn [append is_name all_chars]. rewrite all_chars_dec; [reflexivity|].
  intros d Hd. rewrite (digit_is_digit d Hd). destruct (is_letter _); reflexivity.
Qed.
Lemma is_name_c j : is_name (cname j) = true.
Proof.
  unfold cname, dec_nat. cbn [append is_name all_chars]. rewrite all_chars_dec; [reflexivity|].
  intros d Hd. rewrite (digit_is_digit d Hd). destruct (is_letter _); reflexivity.
Qed.
Lemma chop_colon_app w : chop_colon (w ++ ":") = Some w.
Proof.
  induction w as [|c w IH]; [reflexivity|]. cbn [append chop_colon]. destruct (w ++ ":")%string eqn:E; [destruct w; discriminate|].
  rewrite IH. reflexivity.
Qed.
Lemma label_c i : label_of (cname i ++ ":") = Some (cname i).
Proof. unfold label_of. rewrite chop_colon_app, is_name_c. reflexivity. Qed.
Lemma starts_digit_x j : starts_digit (xname j) = false.
Proof. reflexivity. Qed.
Lemma xname_inj i j : xname i = xname j -> i = j.
Proof. unfold xname. cbn [append]. intros E. injection E as E. apply dec_nat_inj. exact E. Qed.

(** ** Numbers *)
Definition rendered (x : F) : F := match parse_f64 (fmt_e10 x) with Some y => y | None => x end.
Lemma no_ws_sci n e : no_ws (sci_text n e) = true.
Proof.
  rewrite sci_text_eq. unfold no_ws. cbn [free]. rewrite free_app. cbn [free].
  assert (P : forall d, (d < 10)%N -> is_ws (digit_char d) = false) by (intros d Hd; apply digit_char_props; exact Hd).
  rewrite P by (apply N.mod_upper_bound; discriminate). rewrite pdigits_free by exact P.
  unfold dec_Z. destruct (e <? 0)%Z; cbn [append free]; rewrite dec_free by exact P; reflexivity.
Qed.
Lemma fmt_word x : word (fmt_e10 x).
Proof.
  assert (M : forall s t, no_ws t = true -> t <> "" -> word (minus_if s t)).
  { intros s t Ht Hn. destruct s; cbn [minus_if]; split; auto; try discriminate. }
  assert (Hs : forall n e, sci_text n e <> "") by (intros n e; rewrite sci_text_eq; discriminate).
  destruct x as [s|s| |s m e]; cbn [fmt_e10].
  - apply M; [apply no_ws_sci|apply Hs].
  - apply M; [reflexivity|discriminate].
  - split; [reflexivity|discriminate].
  - destruct (ratio m e) as [a b]. destruct (sci_digits a b) as [n d]. apply M; [apply no_ws_sci|apply Hs].
Qed.
Lemma starts_sci n e : starts_digit (sci_text n e) = true.
Proof. rewrite sci_text_eq. cbn [starts_digit]. apply digit_is_digit. apply N.mod_upper_bound. discriminate. Qed.

Section Lp.
  Context (fsin fcos : F -> F).
  Local Instance num : Num F := NumF fsin fcos.

  Lemma read_fmt x : exists y, parse_f64 (fmt_e10 x) = Some y.
  Proof.
    destruct x as [s|s| |s m e].
    - destruct s; vm_compute; eauto.
    - destruct s; vm_compute; eauto.
    - vm_compute; eauto.
    - destruct (C44_precision s m e) as (n & d & Ep & _). rewrite (parse_f64_dec _ _ _ _ Ep). eauto.
  Qed.
  Lemma read_rendered x : @read_num F TextF (fmt_e10 x) = Some (rendered x).
  Proof. unfold rendered. destruct (read_fmt x) as [y E]. cbn [read_num TextF]. rewrite E. reflexivity. Qed.
  Lemma read_signed_fmt x : x <> S754_nan -> read_signed (fmt_e10 x) = Some (rendered x).
  Proof.
    intros Hx. rewrite <- read_rendered. unfold read_signed.
    assert (M : forall s n e, starts_digit (minus_if s (sci_text n e)) ||
      (match minus_if s (sci_text n e) with String c r => (c =? "-")%char && starts_digit r | _ => false end) = true).
    { intros [|] n e; cbn [minus_if]; rewrite starts_sci; reflexivity. }
    destruct x as [s|s| |s m e]; cbn [fmt_e10].
    - rewrite M. reflexivity.
    - destruct s; reflexivity.
    - congruence.
    - destruct (ratio m e) as [a b]. destruct (sci_digits a b) as [n d]. rewrite M. reflexivity.
  Qed.

  (** Negation goes through. *)
  Lemma round_aux_opp mx ex lx : SpecFloat.binary_round_aux 53 1024 true mx ex lx = SFopp (SpecFloat.binary_round_aux 53 1024 false mx ex lx).
  Proof.
    unfold SpecFloat.binary_round_aux. destruct (shr_fexp _ _ _ _ _) as [m1 e1]. destruct (shr_fexp _ _ _ _ _) as [m2 e2].
    destruct (shr_m m2); [reflexivity| |reflexivity]. destruct (e2 <=? 1024 - 53)%Z; reflexivity.
  Qed.
  Lemma round_dec_opp n d : round_dec true n d = SFopp (round_dec false n d).
  Proof.
    unfold round_dec. destruct n as [|p]; [reflexivity|]. destruct (0 <=? d)%Z.
    - assert (Hq : exists q, (Z.pos p * 10 ^ d)%Z = Z.pos q \/ (Z.pos p * 10 ^ d)%Z = 0%Z).
      { destruct (Z.pos p * 10 ^ d)%Z as [|q|q] eqn:E; [exists 1%positive; auto|exists q; auto|].
        assert (0 <= 10 ^ d)%Z by (apply Z.pow_nonneg; lia). lia. }
      destruct Hq as [q [->| ->]]; [|reflexivity]. cbn [cond_Zopp Z.opp SpecFloat.binary_normalize]. unfold SpecFloat.binary_round.
      destruct (shl_align q 0 _) as [mz ez]. apply round_aux_opp.
    - destruct (10 ^ - d)%Z; try reflexivity. cbn [SFdiv xorb]. destruct (SFdiv_core_binary _ _ _ _ _ _) as [[mz ez] lz]. apply round_aux_opp.
  Qed.
  Lemma rendered_opp m e : rendered (S754_finite true m e) = SFopp (rendered (S754_finite false m e)).
  Proof.
    unfold rendered. pose proof (fmt_parse true m e) as A. pose proof (fmt_parse false m e) as B.
    destruct (ratio m e) as [a b]. destruct (sci_digits a b) as [n d]. destruct A as [A _]. destruct B as [B _].
    rewrite (parse_f64_dec _ _ _ _ A), (parse_f64_dec _ _ _ _ B). apply round_dec_opp.
  Qed.

  (** ** Terms *)
  Definition not_zero (d : F) : bool := match d with S754_finite _ _ _ => true | _ => false end.
  Definition finite (d : F) : Prop := match d with S754_finite _ _ _ | S754_zero _ => True | _ => False end.
  Definition coef (jd : nat * F) : list (F * string) := if not_zero (snd jd) then [(rendered (snd jd), xname (fst jd))] else [].

  Lemma is_one m e : @neqb F num (S754_finite false m e) n1 = true -> S754_finite false m e = flit 1.
  Proof.
    cbn [neqb num NumF]. unfold SFeqb. change (flit 1) with (S754_finite false 4503599627370496 (-52)).
    change n1 with (S754_finite false 4503599627370496 (-52)). cbn [SFcompare].
    destruct (e ?= -52)%Z eqn:Ec; try discriminate. apply Z.compare_eq in Ec. subst e.
    destruct (Pcompare m 4503599627370496 Eq) eqn:Em; try discriminate. apply Pos.compare_eq in Em. subst m. reflexivity.
  Qed.
  Lemma words_term pre w j : word pre -> word w ->
    words (line ["     "; pre; " "; w; " x_"; dec_nat j]) = [pre; w; xname j].
  Proof.
    intros Hp Hw. rewrite words_line. rewrite !concat_cons. cbn [String.concat]. rewrite app_nil_s.
    change ("     " ++ ?s)%string with (String " " (String " " (String " " (String " " (String " " s))))). rewrite !words_sp.
    change (" " ++ ?s)%string with (String " " s). rewrite words_wsp by exact Hp.
    change (" x_" ++ dec_nat j)%string with (String " " (xname j)). rewrite words_wsp by exact Hw.
    rewrite words_w by apply word_xname. reflexivity.
  Qed.
  Lemma words_term1 pre j : word pre -> words (line ["     "; pre; " x_"; dec_nat j]) = [pre; xname j].
  Proof.
    intros Hp. rewrite words_line. rewrite !concat_cons. cbn [String.concat]. rewrite app_nil_s.
    change ("     " ++ ?s)%string with (String " " (String " " (String " " (String " " (String " " s))))). rewrite !words_sp.
    change (" x_" ++ dec_nat j)%string with (String " " (xname j)). rewrite words_wsp by exact Hp.
    rewrite words_w by apply word_xname. reflexivity.
  Qed.
  Lemma closed_term d j : closed (term_text d j).
  Proof.
    unfold term_text. destruct (nltb n0 d); [|destruct (nltb d n0)]; try apply closed_nil; destruct (neqb _ _); apply closed_line.
  Qed.
  Lemma word_pm : word "+" /\ word "-".
  Proof. split; split; try reflexivity; discriminate. Qed.

  Lemma read_terms_S k sg w rest : @read_terms F num TextF (S k) (sg :: w :: rest) =
    match sign_of sg with
    | None => Some ([], sg :: w :: rest)
    | Some f =>
      if starts_digit w then
        match read_num w, rest with
        | Some v, nm :: rest' =>
          if is_name nm then match read_terms k rest' with Some (ts, r) => Some ((f v, nm) :: ts, r) | None => None end else None
        | _, _ => None end
      else if is_name w then match read_terms k rest with Some (ts, r) => Some ((f n1, w) :: ts, r) | None => None end else None
    end.
  Proof. reflexivity. Qed.
  Lemma zero_term d j : finite d -> not_zero d = false -> term_text d j = "".
  Proof. destruct d as [s|s| |s m e]; intros; try contradiction; try discriminate. destruct s; reflexivity. Qed.
  (** One term is read back. *)
  Lemma read_term d j k rest : not_zero d = true ->
    read_terms (S k) (words (term_text d j) ++ rest) =
    match read_terms k rest with Some (ts, r) => Some ((rendered d, xname j) :: ts, r) | None => None end.
  Proof.
    intros Hf. destruct word_pm as [Wp Wm].
    destruct d as [s|s| |s m e]; try discriminate.
    unfold term_text.
    assert (E0 : @nltb F num n0 (S754_finite s m e) = negb s) by (destruct s; reflexivity).
    assert (E1 : @nltb F num (S754_finite s m e) n0 = s) by (destruct s; reflexivity).
    rewrite E0, E1. change (@nabs F num (S754_finite s m e)) with (S754_finite false m e).
    destruct (@neqb F num (S754_finite false m e) n1) eqn:En.
    - apply is_one in En. destruct s; cbn [negb].
      + rewrite words_term1 by exact Wm. cbn [app]. rewrite read_terms_S. change (sign_of "-") with (Some (@nneg F _)).
        rewrite starts_digit_x, is_name_x. rewrite rendered_opp, En.
        replace (rendered (flit 1)) with (flit 1) by (vm_compute; reflexivity). reflexivity.
      + rewrite words_term1 by exact Wp. cbn [app]. rewrite read_terms_S. change (sign_of "+") with (Some (fun v : F => v)).
        rewrite starts_digit_x, is_name_x. rewrite En. replace (rendered (flit 1)) with (flit 1) by (vm_compute; reflexivity).
        reflexivity.
    - clear En. assert (Ws := fmt_word (S754_finite false m e)).
      assert (Sd : starts_digit (fmt_e10 (S754_finite false m e)) = true).
      { cbn [fmt_e10]. destruct (ratio m e) as [a b]. destruct (sci_digits a b) as [n d]. apply starts_sci. }
      change (@show_e10 F _ (S754_finite false m e)) with (fmt_e10 (S754_finite false m e)).
      destruct s; cbn [negb].
      + rewrite words_term by assumption. cbn [app]. rewrite read_terms_S. change (sign_of "-") with (Some (@nneg F _)).
        rewrite Sd, read_rendered, is_name_x. rewrite rendered_opp. reflexivity.
      + rewrite words_term by assumption. cbn [app]. rewrite read_terms_S. change (sign_of "+") with (Some (fun v : F => v)).
        rewrite Sd, read_rendered, is_name_x. reflexivity.
  Qed.
  Definition terms_text (l : list (nat * F)) : string := String.concat "" (map (fun jd => term_text (snd jd) (fst jd)) l).
  Lemma closed_terms l : closed (terms_text l).
  Proof. apply closed_concat. induction l; constructor; auto. apply closed_term. Qed.
  Lemma read_terms_list l k rest : Forall (fun jd => finite (snd jd)) l ->
    (forall k', read_terms k' rest = Some ([] : list (F * string), rest)) ->
    length (words (terms_text l)) <= k ->
    read_terms k (words (terms_text l) ++ rest) = Some (flat_map coef l, rest).
  Proof.
    intros Hf Hr. revert k. induction Hf as [|[j d] l Hd Hf IH]; intros k Hk; [apply Hr|].
    unfold terms_text in *. cbn [map fst snd] in *. rewrite concat_cons in *. rewrite words_closed in * by apply closed_term.
    cbn [flat_map]. unfold coef at 1. cbn [fst snd].
    destruct (not_zero d) eqn:En.
    - assert (Hl : 1 <= length (words (term_text d j))).
      { destruct (words (term_text d j)) eqn:Ew; [|cbn; lia]. exfalso.
        pose proof (read_term d j 0 [] En) as R. rewrite Ew in R. cbn in R. discriminate. }
      rewrite app_length in Hk. destruct k as [|k]; [lia|]. rewrite <- app_assoc, read_term by exact En.
      rewrite IH by lia. reflexivity.
    - cbn [snd] in Hd. rewrite (zero_term d j Hd En) in *. cbn [words] in *. apply IH. exact Hk.
  Qed.

  (** ** Rows *)
  Lemma mapR_slice {B} (g : nat -> F -> B) (js : list nat) (ds : list F) n : forall a row,
    firstn n (skipn a (combine js ds)) = row -> length row = n ->
    mapR (fun k => rbind (vget js k) (fun j => rbind (vget ds k) (fun d => Ok (g j d)))) (seq a n)
    = Ok (map (fun jd => g (fst jd) (snd jd)) row).
  Proof.
    assert (V : forall a (j : nat) (d : F), nth_error (combine js ds) a = Some (j, d) -> vget js a = Ok j /\ vget ds a = Ok d).
    { intros a. revert js ds. induction a as [|a IHa]; intros [|j0 js] [|d0 ds] j d E; cbn in E; try discriminate.
      - injection E as <- <-. split; reflexivity.
      - apply IHa in E. exact E. }
    induction n as [|n IH]; intros a row E Hl; [destruct row; [reflexivity|discriminate]|].
    destruct (skipn a (combine js ds)) as [|[j d] tl] eqn:Es; [cbn in E; subst row; discriminate|].
    cbn [firstn] in E. subst row. cbn [length] in Hl.
    assert (En : nth_error (combine js ds) a = Some (j, d)).
    { rewrite <- (firstn_skipn a (combine js ds)), nth_error_app2; rewrite ?Es, firstn_length.
      - replace (a - Nat.min a (length (combine js ds))) with 0; [reflexivity|].
        assert (a < length (combine js ds)); [|lia]. destruct (Nat.le_gt_cases (length (combine js ds)) a); [|assumption].
        rewrite skipn_all2 in Es by assumption. discriminate.
      - lia. }
    destruct (V _ _ _ En) as [-> ->] || (destruct (V _ _ _ En) as [V1 V2]; cbn [seq mapR]; rewrite V1; cbn [rbind]; rewrite V2).
    all: cbn [seq mapR rbind map fst snd].
    rewrite (IH (S a) (firstn n tl)); [reflexivity| |lia].
    f_equal. clear -Es. revert Es. generalize (combine js ds). induction a as [|a IHa]; intros l Es; [destruct l; [discriminate|]; injection Es; auto|].
    destruct l as [|x l]; [discriminate|]. exact (IHa l Es).
  Qed.
  Lemma mapR_ok {A B} (f : A -> res B) (g : A -> B) l : (forall a, In a l -> f a = Ok (g a)) -> mapR f l = Ok (map g l).
  Proof.
    induction l as [|a l IH]; intros E; [reflexivity|]. cbn [mapR map]. rewrite E by (left; reflexivity). cbn [rbind].
    rewrite IH by (intros; apply E; right; assumption). reflexivity.
  Qed.
  Definition row_piece (i : nat) (row : list (nat * F)) (bi : F) : string :=
    (line ["  c_"; dec_nat i; ":"] ++ terms_text row ++ line ["     = "; show_e10 bi])%string.
  Lemma row_text_eq b cols rows i row bi : nth_error rows i = Some row -> nth_error b i = Some bi ->
    row_text b (csr_of cols rows) i = Ok (row_piece i row bi).
  Proof.
    intros Er Eb. destruct (C37_row_pointers cols rows) as (_ & _ & _ & _ & P). destruct (P i row Er) as (a & P1 & P2 & P3).
    unfold row_text. unfold vget at 1. rewrite Eb. cbn [rbind]. unfold vget at 1. rewrite P1. cbn [rbind]. unfold vget at 1.
    rewrite P2. cbn [rbind]. replace (a + length row - a) with (length row) by lia.
    rewrite (mapR_slice (fun j d => term_text d j) _ _ _ a row P3 eq_refl). reflexivity.
  Qed.
  Lemma closed_row i row bi : closed (row_piece i row bi).
  Proof. apply closed_app; [apply closed_line|]. apply closed_app; [apply closed_terms|apply closed_line]. Qed.
  Lemma words_row i row bi : words (row_piece i row bi) = (cname i ++ ":")%string :: words (terms_text row) ++ ["="; fmt_e10 bi].
  Proof.
    unfold row_piece. rewrite words_closed by apply closed_line. rewrite words_closed by apply closed_terms.
    rewrite !words_line, !concat_cons. cbn [String.concat]. rewrite !app_nil_s.
    change ("  c_" ++ dec_nat i ++ ":")%string with (String " " (String " " (cname i ++ ":"))). rewrite !words_sp, words_w by apply word_clabel.
    cbn [app]. f_equal. f_equal.
    change ("     = " ++ show_e10 bi)%string with (String " " (String " " (String " " (String " " (String " " ("=" ++ String " " (fmt_e10 bi))))))).
    rewrite !words_sp, words_wsp by (split; [reflexivity|discriminate]). rewrite words_w by apply fmt_word. reflexivity.
  Qed.
  Lemma stop_eq num rest k : @read_terms F _ _ k ("=" :: num :: rest) = Some ([], "=" :: num :: rest).
  Proof. destruct k; reflexivity. Qed.
  Definition row_doc (i : nat) (row : list (nat * F)) (bi : F) : lp_row F := mk_row (cname i) (flat_map coef row) (rendered bi).
  Definition rows_text (l : list (nat * list (nat * F) * F)) : string :=
    String.concat "" (map (fun e => row_piece (fst (fst e)) (snd (fst e)) (snd e)) l).
  Lemma closed_rows l : closed (rows_text l).
  Proof. apply closed_concat. induction l; constructor; auto. apply closed_row. Qed.
  Lemma read_rows_list l k rest :
    Forall (fun e => Forall (fun jd => finite (snd jd)) (snd (fst e)) /\ existsb (fun jd => not_zero (snd jd)) (snd (fst e)) = true /\ snd e <> S754_nan) l ->
    (forall k', read_rows k' rest = Some ([] : list (lp_row F), rest)) ->
    length (words (rows_text l)) <= k ->
    read_rows k (words (rows_text l) ++ rest) = Some (map (fun e => row_doc (fst (fst e)) (snd (fst e)) (snd e)) l, rest).
  Proof.
    intros Hf Hr. revert k. induction Hf as [|[[i row] bi] l (H1 & H2 & H3) Hf IH]; intros k Hk; [apply Hr|].
    unfold rows_text in *. cbn [map fst snd] in *. rewrite concat_cons in *. rewrite words_closed in * by apply closed_row.
    rewrite words_row in *. rewrite <- app_assoc. rewrite app_length in Hk. cbn [app length] in *.
    destruct k as [|k]; [lia|]. cbn [read_rows]. rewrite label_c. rewrite <- app_assoc. cbn [app].
    rewrite read_terms_list; [|exact H1|intros; apply stop_eq|rewrite !app_length; lia].
    assert (Hn : exists t ts, flat_map coef row = t :: ts).
    { clear -H2. induction row as [|[j d] row IH]; [discriminate|]. cbn [existsb flat_map snd] in *. unfold coef at 1. cbn [fst snd].
      destruct (not_zero d); [do 2 eexists; reflexivity|]. apply IH. exact H2. }
    destruct Hn as (t & ts & Et). unfold row_doc at 1. rewrite Et. cbn [String.eqb]. change ("=" =? "=")%string with true. cbn iota.
    rewrite read_signed_fmt by exact H3. rewrite IH by (rewrite app_length in Hk; lia). reflexivity.
  Qed.

  (** ** Bounds *)
  Definition bound_piece (i : nat) (lu : F * F) : string :=
    line [" "; show_e10 (fst lu); " <= x_"; dec_nat i; " <= "; show_e10 (snd lu)]%string.
  Lemma words_bound i lu : words (bound_piece i lu) = [fmt_e10 (fst lu); "<="; xname i; "<="; fmt_e10 (snd lu)].
  Proof.
    unfold bound_piece. rewrite words_line, !concat_cons. cbn [String.concat]. rewrite app_nil_s.
    change (" " ++ ?s)%string with (String " " s). rewrite words_sp.
    change (" <= x_" ++ ?s)%string with (String " " ("<=" ++ String " " ("x_" ++ s))).
    change (show_e10 (fst lu)) with (fmt_e10 (fst lu)). rewrite words_wsp by apply fmt_word.
    rewrite words_wsp by (split; [reflexivity|discriminate]). rewrite <- app_assoc_s. change ("x_" ++ dec_nat i)%string with (xname i).
    change (" <= " ++ ?s)%string with (String " " ("<=" ++ String " " s)). rewrite words_wsp by apply word_xname.
    rewrite words_wsp by (split; [reflexivity|discriminate]). rewrite words_w by apply fmt_word. reflexivity.
  Qed.
  Definition bounds_text (l : list (nat * (F * F))) : string := String.concat "" (map (fun e => bound_piece (fst e) (snd e)) l).
  Lemma closed_bounds l : closed (bounds_text l).
  Proof. apply closed_concat. induction l; constructor; auto. apply closed_line. Qed.
  Lemma read_bounds_list l k rest : Forall (fun e => fst (snd e) <> S754_nan /\ snd (snd e) <> S754_nan) l ->
    (forall k', read_bounds k' rest = Some ([] : list (F * string * F), rest)) ->
    length (words (bounds_text l)) <= k ->
    read_bounds k (words (bounds_text l) ++ rest) =
    Some (map (fun e => (rendered (fst (snd e)), xname (fst e), rendered (snd (snd e)))) l, rest).
  Proof.
    intros Hf Hr. revert k. induction Hf as [|[i [lo hi]] l (H1 & H2) Hf IH]; intros k Hk; [apply Hr|].
    unfold bounds_text in *. cbn [map fst snd] in *. rewrite concat_cons in *. rewrite words_closed in * by apply closed_line.
    rewrite words_bound in *. rewrite <- app_assoc. cbn [fst snd app length] in *.
    destruct k as [|k]; [lia|]. cbn [read_bounds]. rewrite !read_signed_fmt by assumption. rewrite is_name_x.
    change (("<=" =? "<=")%string && ("<=" =? "<=")%string && true) with true. cbn iota. rewrite IH by lia. reflexivity.
  Qed.

  (** ** Integer variables *)
  Lemma words_general p : forall s, words (String.concat "" (map (fun ib : nat * bool => if snd ib then line [" x_"; dec_nat (fst ib)]%string else "") (combine (seq s (length p)) p))) =
    map (fun ib : nat * bool => xname (fst ib)) (filter snd (combine (seq s (length p)) p)).
  Proof.
    induction p as [|q p IH]; intros s; [reflexivity|]. cbn [length seq combine map filter fst snd]. rewrite concat_cons. destruct q.
    - rewrite words_closed by apply closed_line. rewrite IH. rewrite words_line, !concat_cons. cbn [String.concat]. rewrite app_nil_s.
      change (" x_" ++ dec_nat s)%string with (String " " (xname s)). rewrite words_sp, words_w by apply word_xname. reflexivity.
    - rewrite words_closed by apply closed_nil. rewrite IH. reflexivity.
  Qed.
  Lemma closed_general p : closed (general_text p).
  Proof.
    unfold general_text. apply closed_concat. apply Forall_forall. intros x Hx. apply in_map_iff in Hx. destruct Hx as ([i q] & <- & _).
    cbn [snd]. destruct q; [apply closed_line|apply closed_nil].
  Qed.
  Lemma read_names_list ns : Forall (fun i => True) ns -> read_names (map xname ns ++ ["End"]) = Some (map xname ns, ["End"]).
  Proof.
    induction 1 as [|i ns _ _ IH]; [reflexivity|]. cbn [map app]. rewrite <- (app_nil_l (map xname ns)) at 2.
    cbn [read_names]. change (xname i =? "End")%string with false. cbn iota. rewrite is_name_x. cbn [app]. rewrite IH. reflexivity.
  Qed.

  (** ** The whole file *)
  Definition doc_of (c : list F) (rows : list (nat * list (nat * F) * F)) (bounds : list (nat * (F * F))) (ints : list bool) : lp_doc F :=
    mk_doc "obj" (flat_map coef (combine (seq 0 (length c)) c))
           (map (fun e => row_doc (fst (fst e)) (snd (fst e)) (snd e)) rows)
           (map (fun e => (rendered (fst (snd e)), xname (fst e), rendered (snd (snd e)))) bounds)
           (map xname (map fst (filter snd (combine (seq 0 (length ints)) ints)))).
  Definition file_text (c : list F) (rows : list (nat * list (nat * F) * F)) (bounds : list (nat * (F * F))) (ints : list bool) : string :=
    (line ["Minimize"] ++ line [" obj:"] ++ obj_text c ++ line ["Subject to"] ++ rows_text rows ++
     line ["Bounds"] ++ bounds_text bounds ++ line ["General"] ++ general_text ints ++ line ["End"])%string.
  Lemma read_file c rows bounds ints :
    Forall finite c ->
    Forall (fun e => Forall (fun jd => finite (snd jd)) (snd (fst e)) /\ existsb (fun jd => not_zero (snd jd)) (snd (fst e)) = true /\ snd e <> S754_nan) rows ->
    Forall (fun e => fst (snd e) <> S754_nan /\ snd (snd e) <> S754_nan) bounds ->
    read_lp (words (file_text c rows bounds ints)) = Some (doc_of c rows bounds ints).
  Proof.
    intros Hc Hr Hb. unfold file_text. rewrite !words_closed by (apply closed_line || apply closed_rows || apply closed_bounds || apply closed_general || apply (closed_terms (combine _ _))).
    change (words (line ["Minimize"])) with ["Minimize"]. change (words (line [" obj:"])) with ["obj:"].
    change (words (line ["Subject to"])) with ["Subject"; "to"]. change (words (line ["Bounds"])) with ["Bounds"].
    change (words (line ["General"])) with ["General"]. change (words (line ["End"])) with ["End"].
    cbn [app]. unfold read_lp. change ("Minimize" =? "Minimize")%string with true. change (label_of "obj:") with (Some "obj"). cbn iota.
    change (obj_text c) with (terms_text (combine (seq 0 (length c)) c)).
    rewrite read_terms_list; [| |intros [|k]; reflexivity|rewrite app_length; lia].
    2:{ apply Forall_forall. intros [j d] Hin. apply in_combine_r in Hin. rewrite Forall_forall in Hc. apply Hc. exact Hin. }
    change (("Subject" =? "Subject")%string && ("to" =? "to")%string) with true. cbn iota.
    rewrite read_rows_list; [|exact Hr|intros [|k]; reflexivity|rewrite app_length; lia].
    change ("Bounds" =? "Bounds")%string with true. cbn iota.
    rewrite read_bounds_list; [|exact Hb| |rewrite app_length; lia].
    2:{ intros [|k]; [reflexivity|]. cbn [read_bounds]. change (read_signed "General") with (@None F).
        destruct (words (general_text ints) ++ ["End"]) as [|w1 [|w2 [|w3 [|w4 ws]]]]; reflexivity. }
    change ("General" =? "General")%string with true. cbn iota.
    unfold general_text. rewrite words_general. rewrite <- (map_map fst xname). rewrite read_names_list by (apply Forall_forall; auto). reflexivity.
  Qed.
End Lp.
