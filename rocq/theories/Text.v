(** Text: the parts of Rust's standard library used to write and read the files
    exchanged with the command-line solvers. *)
From Verif Require Import Base.
From Coq Require Import NArith Floats.SpecFloat.

Definition nl : ascii := "010"%char.
Definition nls : string := String nl "".

(** [u8::is_ascii_whitespace]: space, tab, line feed, form feed, carriage return. *)
Definition is_ws (c : ascii) : bool :=
  (c =? " ")%char || (c =? "009")%char || (c =? nl)%char || (c =? "012")%char || (c =? "013")%char.

(** [str::split_ascii_whitespace]: the maximal runs of other characters. *)
Definition wcons (w : string) (ws : list string) : list string :=
  match w with EmptyString => ws | _ => w :: ws end.
Fixpoint wsplit (s : string) : string * list string :=
  match s with
  | EmptyString => (EmptyString, [])
  | String c s' =>
    let '(w, ws) := wsplit s' in
    if is_ws c then (EmptyString, wcons w ws) else (String c w, ws)
  end.
Definition words (s : string) : list string := let '(w, ws) := wsplit s in wcons w ws.

(** [str::split(char)]: the pieces between the separators, at least one. *)
Fixpoint split_on (sep : ascii) (s : string) : list string :=
  match s with
  | EmptyString => [EmptyString]
  | String c s' =>
    if (c =? sep)%char then EmptyString :: split_on sep s'
    else match split_on sep s' with
         | w :: ws => String c w :: ws
         | [] => [String c EmptyString]
         end
  end.

(** [BufRead::read_line]: up to and including the first line feed; the rest. *)
Fixpoint cut_line (s : string) : string * string :=
  match s with
  | EmptyString => (EmptyString, EmptyString)
  | String c s' =>
    if (c =? nl)%char then (String c EmptyString, s')
    else let '(l, r) := cut_line s' in (String c l, r)
  end.
(** [BufRead::lines]: each line without its line feed; a last line without line
    feed counts if it is not empty.  (Rust also removes a carriage return before
    the line feed; it is whitespace, which [words] skips.) *)
Definition lines (s : string) : list string :=
  let ps := split_on nl s in
  match last ps EmptyString with EmptyString => removelast ps | _ => ps end.

(** ** Validity of UTF-8 ([str::from_utf8], core/src/str/validations.rs) *)
Definition byte_in (lo hi : N) (c : ascii) : bool := (lo <=? N_of_ascii c)%N && (N_of_ascii c <=? hi)%N.
Definition cont (c : ascii) : bool := byte_in 128 191 c.
Fixpoint utf8_valid (s : string) : bool :=
  match s with
  | EmptyString => true
  | String a s1 =>
    if byte_in 0 127 a then utf8_valid s1
    else match s1 with
    | EmptyString => false
    | String b s2 =>
      if byte_in 194 223 a then cont b && utf8_valid s2
      else match s2 with
      | EmptyString => false
      | String c s3 =>
        if (byte_in 224 224 a && byte_in 160 191 b || byte_in 225 236 a && cont b
            || byte_in 237 237 a && byte_in 128 159 b || byte_in 238 239 a && cont b)
        then cont c && utf8_valid s3
        else match s3 with
        | EmptyString => false
        | String d s4 =>
          (byte_in 240 240 a && byte_in 144 191 b || byte_in 241 243 a && cont b
           || byte_in 244 244 a && byte_in 128 143 b) && cont c && cont d && utf8_valid s4
        end
      end
    end
  end.

(** ** Decimal numerals *)
Definition digit_char (d : N) : ascii := ascii_of_N (48 + d).
Definition digit_val (c : ascii) : option N :=
  if byte_in 48 57 c then Some (N_of_ascii c - 48)%N else None.

(** [k] digits of [n]. *)
Fixpoint pdigits (k : nat) (n : N) : string :=
  match k with
  | O => EmptyString
  | S k' => (pdigits k' (n / 10) ++ String (digit_char (n mod 10)) EmptyString)%string
  end.
(** The number of digits of [n], at least one. *)
Fixpoint ndig_aux (fuel : nat) (n : N) : nat :=
  match fuel with
  | O => 1
  | S f => if (n <? 10)%N then 1 else S (ndig_aux f (n / 10))
  end.
Definition ndig (n : N) : nat := ndig_aux (N.size_nat n) n.
(** [format!("{}", n)] of an unsigned integer. *)
Definition dec (n : N) : string := pdigits (ndig n) n.
Definition dec_nat (n : nat) : string := dec (N.of_nat n).
(** [format!("{}", z)] of a signed integer. *)
Definition dec_Z (z : Z) : string :=
  (if (z <? 0)%Z then "-" else "") ++ dec (Z.abs_N z).

(** The leading digits of a string: how many, their value, the rest. *)
Fixpoint take_digits (acc : N) (cnt : nat) (s : string) : nat * N * string :=
  match s with
  | EmptyString => (cnt, acc, s)
  | String c s' =>
    match digit_val c with
    | Some d => take_digits (10 * acc + d) (S cnt) s'
    | None => (cnt, acc, s)
    end
  end.

(** [str::parse::<usize>], 64 bits: an optional plus sign and digits only, no
    overflow. *)
Definition parse_usize (s : string) : option nat :=
  let s := match s with String c r => if (c =? "+")%char then r else s | _ => s end in
  match take_digits 0 0 s with
  | (S _, n, EmptyString) => if (n <? 2 ^ 64)%N then Some (N.to_nat n) else None
  | _ => None
  end.

(** The front end of [str::parse::<f64>] for decimal numerals: sign, digits and
    power of ten (core/src/num/dec2flt/parse.rs). *)
Definition parse_sign (s : string) : bool * string :=
  match s with
  | String c r => if (c =? "-")%char then (true, r) else if (c =? "+")%char then (false, r) else (false, s)
  | _ => (false, s)
  end.
Definition parse_exp (s : string) : option Z :=
  match s with
  | EmptyString => Some 0%Z
  | String c r =>
    if (c =? "e")%char || (c =? "E")%char then
      let '(neg, r) := parse_sign r in
      match take_digits 0 0 r with
      | (S _, n, EmptyString) => Some (if neg then - Z.of_N n else Z.of_N n)%Z
      | _ => None
      end
    else None
  end.
Definition parse_dec (s : string) : option (bool * N * Z) :=
  let '(neg, s) := parse_sign s in
  let '(ci, ip, r) := take_digits 0 0 s in
  let '(cf, m, r) :=
    match r with
    | String c r' => if (c =? ".")%char then let '(cf, m, r'') := take_digits ip 0 r' in (cf, m, r'') else (0, ip, r)
    | EmptyString => (0, ip, r)
    end in
  match ci + cf with
  | O => None
  | S _ => match parse_exp r with Some e => Some (neg, m, (e - Z.of_nat cf)%Z) | None => None end
  end.

(** Correct rounding of [(-1)^s m 10^e] to binary64. *)
Definition round_dec (s : bool) (m : N) (e : Z) : spec_float :=
  match m with
  | N0 => S754_zero s
  | Npos p =>
    if (0 <=? e)%Z then binary_normalize 53 1024 (cond_Zopp s (Z.pos p * 10 ^ e)) 0 s
    else match (10 ^ (- e))%Z with
         | Z.pos q => SFdiv 53 1024 (S754_finite s p 0) (S754_finite false q 0)
         | _ => S754_nan
         end
  end.
Definition lower (c : ascii) : ascii :=
  if byte_in 65 90 c then ascii_of_N (N_of_ascii c + 32) else c.
Fixpoint lower_s (s : string) : string :=
  match s with EmptyString => EmptyString | String c r => String (lower c) (lower_s r) end.
(** [str::parse::<f64>]. *)
Definition parse_f64 (s : string) : option spec_float :=
  match parse_dec s with
  | Some (neg, m, e) => Some (round_dec neg m e)
  | None =>
    let '(neg, r) := parse_sign s in
    let l := lower_s r in
    if (l =? "inf")%string || (l =? "infinity")%string then Some (S754_infinity neg)
    else if (l =? "nan")%string then Some S754_nan else None
  end.

(** ** [format!("{:.10e}", x)] of an f64: eleven significant digits, ties to
    even (core/src/num/flt2dec/strategy/dragon.rs, format_exact). *)
Definition round_half_even (a b : N) : N :=
  let q := (a / b)%N in let r := (a mod b)%N in
  if (b <? 2 * r)%N || ((2 * r =? b)%N && N.odd q) then (q + 1)%N else q.
(** [a / b * 10 ^ k]. *)
Definition scale10 (a b : N) (k : Z) : N * N :=
  if (0 <=? k)%Z then (a * 10 ^ Z.to_N k, b)%N else (a, b * 10 ^ Z.to_N (- k))%N.
(** Whether [a / b >= 10 ^ k]. *)
Definition ge_pow10 (a b : N) (k : Z) : bool :=
  let '(a', b') := scale10 a b (- k) in (b' <=? a')%N.
(** Digits and exponent of [a / b]. *)
Definition sci_digits (a b : N) : N * Z :=
  let e0 := (Z.of_nat (ndig a) - Z.of_nat (ndig b))%Z in
  let e := if ge_pow10 a b e0 then e0 else (e0 - 1)%Z in
  let '(a', b') := scale10 a b (10 - e) in
  let n := round_half_even a' b' in
  if (n =? 10 ^ 11)%N then ((10 ^ 10)%N, (e + 1)%Z) else (n, e).
Definition sci_text (n : N) (e : Z) : string :=
  match pdigits 11 n with
  | String c r => String c (String "."%char (r ++ String "e"%char (dec_Z e)))
  | EmptyString => EmptyString
  end.
Definition ratio (m : positive) (e : Z) : N * N :=
  if (0 <=? e)%Z then (N.pos m * 2 ^ Z.to_N e, 1)%N else (N.pos m, 2 ^ Z.to_N (- e))%N.
Definition minus_if (s : bool) (t : string) : string := if s then String "-"%char t else t.
Definition fmt_e10 (x : spec_float) : string :=
  match x with
  | S754_nan => "NaN"
  | S754_infinity s => minus_if s "inf"
  | S754_zero s => minus_if s (sci_text 0 0)
  | S754_finite s m e =>
    let '(a, b) := ratio m e in let '(n, d) := sci_digits a b in minus_if s (sci_text n d)
  end.

Example fmt_examples :
  map fmt_e10 [S754_finite false 3 (-1); S754_zero true; S754_finite true 5 1; S754_finite false 3602879701896397 (-55);
               S754_finite false 99999999999999 (-7); S754_infinity true] =
  ["1.5000000000e0"; "-0.0000000000e0"; "-1.0000000000e1"; "1.0000000000e-1"; "7.8125000000e11"; "-inf"]%string.
Proof. vm_compute. reflexivity. Qed.
Example parse_examples :
  map parse_f64 ["0.1"; "-1.5e1"; ".5"; "5."; "."; "1e"; "-iNf"; "+3"; "1_0"; "1e-400"; "1e400"]%string =
  [Some (S754_finite false 7205759403792794 (-56)); Some (S754_finite true 8444249301319680 (-49));
   Some (S754_finite false 4503599627370496 (-53)); Some (S754_finite false 5629499534213120 (-50));
   None; None; Some (S754_infinity true); Some (S754_finite false 6755399441055744 (-51)); None;
   Some (S754_zero false); Some (S754_infinity false)].
Proof. vm_compute. reflexivity. Qed.
Example words_examples : words (" a  bc" ++ nls ++ "d ") = ["a"; "bc"; "d"]%string /\
  lines ("a b" ++ nls ++ nls ++ "c") = ["a b"; ""; "c"]%string /\ lines ("a" ++ nls) = ["a"]%string /\ lines "" = [] /\
  split_on "_" "x_12_z" = ["x"; "12"; "z"]%string /\ dec_nat 0 = "0"%string /\ dec_nat 1203 = "1203"%string /\
  parse_usize "+17" = Some 17 /\ parse_usize "" = None /\ parse_usize "+" = None /\ parse_usize "-1" = None.
Proof. repeat split; reflexivity. Qed.
