(** Specification vocabulary: texts, independently of how they are taken apart. *)
From Verif Require Import Base Num Problem ModelStd SolSpec.
From Coq Require Import NArith Reals Floats.SpecFloat.
From Flocq Require Import Core.
Local Open Scope string_scope.
Local Open Scope list_scope.

(** ** Characters *)
Definition code (c : ascii) : N := N_of_ascii c.
(** Space, tab, line feed, form feed, carriage return. *)
Definition blank (c : ascii) : Prop := In (code c) [32; 9; 10; 12; 13]%N.
Definition line_feed (c : ascii) : Prop := code c = 10%N.
Definition all_chars (P : ascii -> Prop) (s : string) : Prop := Forall P (list_ascii_of_string s).
(** A word: at least one character, none of them blank. *)
Definition word (w : string) : Prop := w <> "" /\ all_chars (fun c => ~ blank c) w.

(** [s] consists of the words [ws], separated by blanks, perhaps with blanks around. *)
Inductive made_of : string -> list string -> Prop :=
| mo_end g : all_chars blank g -> made_of g []
| mo_word g w s ws : all_chars blank g -> word w -> made_of s ws -> (s = "" \/ exists c r, s = String c r /\ blank c) ->
    made_of (g ++ w ++ s)%string (w :: ws).

(** [s] is [w0 sep w1 sep ... wn], without [sep] inside. *)
Fixpoint joined (sep : ascii) (ws : list string) : string :=
  match ws with
  | [] => ""
  | [w] => w
  | w :: ws => (w ++ String sep (joined sep ws))%string
  end.
Definition pieces (sep : ascii) (s : string) (ws : list string) : Prop :=
  ws <> [] /\ Forall (all_chars (fun c => c <> sep)) ws /\ s = joined sep ws.

(** The lines of a text: each ends with a line feed; a text may stop inside
    its last line. *)
Fixpoint ended (ls : list string) : string :=
  match ls with [] => "" | l :: ls => (l ++ String "010" (ended ls))%string end.
Definition has_lines (s : string) (ls : list string) : Prop :=
  Forall (all_chars (fun c => ~ line_feed c)) ls /\
  (s = ended ls \/ exists ls' l, ls = ls' ++ [l] /\ l <> "" /\ s = (ended ls' ++ l)%string).

(** ** UTF-8 *)
Definition scalar (cp : N) : Prop := (cp < 55296 \/ 57344 <= cp < 1114112)%N.
Definition utf8_bytes (cp : N) : list N :=
  (if cp <? 128 then [cp]
   else if cp <? 2048 then [192 + cp / 64; 128 + cp mod 64]
   else if cp <? 65536 then [224 + cp / 4096; 128 + cp / 64 mod 64; 128 + cp mod 64]
   else [240 + cp / 262144; 128 + cp / 4096 mod 64; 128 + cp / 64 mod 64; 128 + cp mod 64])%N.
Definition is_utf8 (s : string) : Prop :=
  exists cps, Forall scalar cps /\ map code (list_ascii_of_string s) = flat_map utf8_bytes cps.

(** ** Numerals *)
Definition digit (c : ascii) (d : N) : Prop := (d < 10 /\ code c = 48 + d)%N.
Definition digits (s : string) (ds : list N) : Prop := Forall2 digit (list_ascii_of_string s) ds.
Fixpoint dvalue (ds : list N) : N :=
  match ds with [] => 0 | d :: ds => d * 10 ^ N.of_nat (length ds) + dvalue ds end%N.

(** An unsigned integer of 64 bits. *)
Definition integer_text (s : string) (n : nat) : Prop :=
  exists sg t ds, (sg = "" \/ sg = "+") /\ digits t ds /\ ds <> [] /\ s = (sg ++ t)%string /\
    N.of_nat n = dvalue ds /\ (N.of_nat n < 2 ^ 64)%N.

Inductive sign_text : string -> bool -> Prop :=
| st_none : sign_text "" false | st_plus : sign_text "+" false | st_minus : sign_text "-" true.
(** A point and the digits after it; an exponent. *)
Inductive fraction_text : string -> list N -> Prop :=
| ft_none : fraction_text "" []
| ft_point t ds : digits t ds -> fraction_text (String "." t) ds.
Inductive exponent_text : string -> Z -> Prop :=
| et_none : exponent_text "" 0
| et_exp c sg neg t ds : c = "e"%char \/ c = "E"%char -> sign_text sg neg -> digits t ds -> ds <> [] ->
    exponent_text (String c (sg ++ t)) (if neg then - Z.of_N (dvalue ds) else Z.of_N (dvalue ds)).

Local Open Scope R_scope.
Definition natural (n : N) : R := IZR (Z.of_N n).
(** [s] is a decimal numeral with sign [neg] ([true] for minus) and value [r]. *)
Inductive decimal_text : string -> bool -> R -> Prop :=
| dt sg neg ti ids tf fds te e :
    sign_text sg neg -> digits ti ids -> fraction_text tf fds -> exponent_text te e -> ids ++ fds <> [] ->
    decimal_text (sg ++ ti ++ tf ++ te)%string neg
      ((if neg then -1 else 1) * (natural (dvalue ids) + natural (dvalue fds) / 10 ^ length fds) * powerRZ 10 e).

(** The value of a finite float, and the float nearest to a real (ties to even, Flocq's definition
    of rounding), infinite beyond the range. *)
Definition float_value (x : spec_float) : R :=
  match x with S754_finite s m e => (if s then -1 else 1) * IZR (Z.pos m) * powerRZ 2 e | _ => 0 end.
Definition nearest64 (r : R) : R := round radix2 (FLT_exp (-1074) 53) ZnearestE r.
Definition nearest_float (neg : bool) (r : R) (x : spec_float) : Prop :=
  valid_binary 53 1024 x = true /\
  (Rabs (nearest64 r) < powerRZ 2 1024 ->
     float_value x = nearest64 r /\ match x with S754_finite s _ _ | S754_zero s => s = neg | _ => False end) /\
  (powerRZ 2 1024 <= Rabs (nearest64 r) -> x = S754_infinity neg).

(** The same letters, up to case; [w] in lower case. *)
Definition spells (s w : string) : Prop :=
  Forall2 (fun a b => code a = code b \/ (code a + 32 = code b)%N) (list_ascii_of_string s) (list_ascii_of_string w).

(** [s] is the text of the float [x]. *)
Inductive float_text : string -> spec_float -> Prop :=
| xt_decimal s neg r x : decimal_text s neg r -> nearest_float neg r x -> float_text s x
| xt_inf sg neg w s : sign_text sg neg -> spells s w -> w = "inf" \/ w = "infinity" -> float_text (sg ++ s)%string (S754_infinity neg)
| xt_nan sg neg s : sign_text sg neg -> spells s "nan" -> float_text (sg ++ s)%string S754_nan.

(** The first line of a text, with its line feed if it has one, and the rest. *)
Definition first_line (s l rest : string) : Prop :=
  exists l0, all_chars (fun c => ~ line_feed c) l0 /\
    ((l = (l0 ++ String "010" "")%string /\ s = (l ++ rest)%string) \/ (l = l0 /\ s = l0 /\ rest = "")).

(** The usual text of a natural number: no superfluous zeros in front. *)
Definition plain_digits (s : string) (n : N) : Prop :=
  exists ds, digits s ds /\ dvalue ds = n /\ (ds = [0%N] \/ exists d r, ds = d :: r /\ d <> 0%N).

(** [n * 10^(z-10)] with an [n] of eleven digits is nearest to [v] among all such
    numbers; when another one is as near, [n] is even. *)
Definition nearest11 (v : R) (n : N) (z : Z) : Prop :=
  (10 ^ 10 <= n < 10 ^ 11)%N /\
  forall k j, (10 ^ 10 <= k < 10 ^ 11)%N ->
    let far m i := Rabs (natural m * powerRZ 10 (i - 10) - v) in
    far n z <= far k j /\ (far n z = far k j -> (k = n /\ j = z) \/ N.even n = true).
(** [s] is [v] in scientific notation with eleven significant digits, [d.dddddddddde[-]x]. *)
Definition scientific (s : string) (v : R) : Prop :=
  exists c t ds te n z, digit c (hd 0%N ds) /\ digits t (tl ds) /\ length ds = 11%nat /\ dvalue ds = n /\
    s = String c (String "." (t ++ String "e" te)) /\
    (exists sg neg, sign_text sg neg /\ sg <> "+" /\ exists tz, te = (sg ++ tz)%string /\ plain_digits tz (Z.abs_N z) /\ (neg = true <-> (z < 0)%Z)) /\
    ((v = 0 /\ n = 0%N /\ z = 0%Z) \/ (0 < v /\ nearest11 v n z)).
(** The text [format!("{:.10e}", x)]. *)
Definition written (x : spec_float) (s : string) : Prop :=
  match x with
  | S754_nan => s = "NaN"
  | S754_infinity neg => s = (if neg then "-inf" else "inf")
  | S754_zero neg => exists t, s = ((if neg then "-" else "") ++ t)%string /\ scientific t 0
  | S754_finite neg _ _ => exists t, s = ((if neg then "-" else "") ++ t)%string /\ scientific t (Rabs (float_value x))
  end.

Local Close Scope R_scope.
(** ** Solution files *)
(** A line of results: a first word, a name [x_i] or [c_k] (perhaps with more after another
    underscore), a value, a multiplier, and perhaps more words. *)
Definition line_says (l : string) (r : record spec_float) : Prop :=
  is_utf8 l /\
  exists w0 name value mul more a idx rest v m,
    made_of l (w0 :: name :: value :: mul :: more) /\ pieces "_" name (a :: idx :: rest) /\
    float_text value v /\ float_text mul m /\
    ((a = "x" /\ exists i, integer_text idx i /\ r = RVar i v m) \/
     (a = "c" /\ exists k, integer_text idx k /\ r = RRow k m)).
(** The file starts with a line whose first word is [w]; [rest] is what follows. *)
Definition starts_with (text w rest : string) : Prop :=
  exists l more, first_line text l rest /\ is_utf8 l /\ made_of l (w :: more).
(** The lines of results of a file that reports success: those after the first
    line, or for Clp ([cbc = false]) after the second one. *)
Definition results_of (cbc : bool) (text : string) (ls : list string) : Prop :=
  exists rest rest', starts_with text (if cbc then "Optimal" else "optimal") rest /\
    (if cbc then rest' = rest else exists l2, first_line rest l2 rest' /\ is_utf8 l2) /\
    has_lines rest' ls.
