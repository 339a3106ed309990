(** The repository's own unit tests, replayed on the model (validation of the model, not
    proofs of properties).  Each [Example] runs the model on the inputs of the Rust test of
    the same name and checks every assertion of that test.  Numbers are binary64.  Sine and
    cosine are two arbitrary stand-in functions [tsin], [tcos] (the Rust tests compare with
    [f64::sin], [f64::cos]); hash maps are iterated in insertion order, and again in
    reverse order, as the Rust tests accept any order. *)
From Verif Require Import Base Num Node NodeDiff NodeStd Constraint Matrix Problem ModelStd Model
  Text LpFile Display.
From Coq Require Import Floats.SpecFloat.

Definition tsin (x : F) : F := SFadd fprec femax x (flit 1000).
Definition tcos (x : F) : F := SFmul fprec femax x (flit 7).
#[local] Instance NT : Num F := NumF tsin tcos.

Definition fe (a b : F) : bool := SFeqb a b.
Definition i_ (z : Z) : F := flit z.
(** [format!("{}", x)] of an integer-valued number. *)
Definition itext (x : F) : string :=
  match x with
  | S754_zero false => "0"
  | S754_zero true => "-0"
  | S754_finite s m e =>
    let z := if (0 <=? e)%Z then (Z.pos m * 2 ^ e)%Z else (Z.pos m / 2 ^ (- e))%Z in
    if SFeqb (flit z) (S754_finite false m e) then dec_Z (if s then (- z)%Z else z) else "?"
  | _ => "?"
  end.
Definition shows (n : node F) (s : string) : bool := String.eqb (show itext n) s.
Definition evals (vs : vals F) (n : node F) (v : F) : bool := fe (evaluate vs n) v.
Definition cst (n : node F) (v : F) : bool := is_constant_with_value n v.
(** [format!("{:?}", z.arguments())]. *)
Definition args (n : node F) (l : list string) : bool :=
  if list_eq_dec string_dec (map (show itext) (arguments n)) l then true else false.

Definition N := node F.
Definition V (s : string) : M N := mk_var s VarContinuous.
Definition C (z : Z) : M N := mk_const (i_ z).
Definition l2 (f : N -> N -> M N) (a b : M N) : M N := bind a (fun x => bind b (fun y => f x y)).
Definition lr (f : N -> F -> M N) (a : M N) (s : F) : M N := bind a (fun x => f x s).
Definition ll (f : F -> N -> M N) (s : F) (a : M N) : M N := bind a (fun x => f s x).
Definition l1 (f : N -> M N) (a : M N) : M N := bind a f.
Declare Scope t_scope.
Delimit Scope t_scope with t.
Notation "# a" := (ret a) (at level 5, format "# a") : t_scope.
Notation "a + b" := (l2 add_nn a b) : t_scope.
Notation "a * b" := (l2 mul_nn a b) : t_scope.
Notation "a - b" := (l2 sub_nn a b) : t_scope.
Notation "a / b" := (l2 div_nn a b) : t_scope.
Notation "a +' s" := (lr add_ns a (i_ s)) (at level 50, left associativity) : t_scope.
Notation "a *' s" := (lr mul_ns a (i_ s)) (at level 40, left associativity) : t_scope.
Notation "a -' s" := (lr sub_ns a (i_ s)) (at level 50, left associativity) : t_scope.
Notation "a /' s" := (lr div_ns a (i_ s)) (at level 40, left associativity) : t_scope.
Notation "s '+ a" := (ll add_sn (i_ s) a) (at level 50, left associativity) : t_scope.
Notation "s '* a" := (ll mul_sn (i_ s) a) (at level 40, left associativity) : t_scope.
Notation "s '- a" := (ll sub_sn (i_ s) a) (at level 50, left associativity) : t_scope.
Notation "s '/ a" := (ll div_sn (i_ s) a) (at level 40, left associativity) : t_scope.
Notation "- a" := (l1 neg_n a) : t_scope.
Notation SIN := (l1 sin_n).
Notation COS := (l1 cos_n).

(** A test is a run of the model ending in a list of checked assertions. *)
Definition test := M (list bool).
Definition passes (t : test) : Prop := match t 0 with Ok (l, _) => forallb id l = true | Panic _ => False end.
Definition T2 (t : forall O : HashOrd, test) : Prop := passes (t ord_id) /\ passes (t ord_rev).
Ltac go := vm_compute; repeat split.
Open Scope m_scope.
Open Scope t_scope.
Open Scope string_scope.

(** ** node.rs *)
Example node_hash : passes (
  x <- V "x" ;; y <- V "y" ;;
  let h := [(x, i_ 2); (y, i_ 4)] in
  ret [match hget ptr_eq x h with Some v => fe v (i_ 2) | None => false end;
       match hget ptr_eq y h with Some v => fe v (i_ 4) | None => false end]).
Proof. go. Qed.

Example node_add_node : passes (
  x <- V "x" ;; y <- V "y" ;; c0 <- C 0 ;; c1 <- C 1 ;; c2 <- C 2 ;;
  let vs := [(x, i_ 3); (y, i_ 4)] in
  z1 <- #x + #y ;; z2 <- #y + #x ;; z3 <- #x + (#y + #x) ;; z4 <- (#x + #y) + #x ;;
  z5 <- #z1 + #z2 + #z3 + #z4 ;; z6 <- (#x + #y) + (#y + #x) ;; z7 <- #x + #c0 ;; z8 <- #c0 + #x ;;
  z9 <- (#x +' 1) + #y ;; z10 <- #x + (#y +' 5) ;; z11 <- (#x +' 2) + (#y +' 7) ;; z12 <- #c1 + #c2 ;;
  z13 <- (#x +' 4) + (5 '+ #y) ;;
  ret [shows z1 "x + y"; evals vs z1 (i_ 7); shows z2 "y + x"; evals vs z2 (i_ 7);
       shows z3 "x + y + x"; evals vs z3 (i_ 10); shows z4 "x + y + x"; evals vs z4 (i_ 10);
       shows z5 "x + y + y + x + x + y + x + x + y + x"; evals vs z5 (i_ 34);
       shows z6 "x + y + y + x"; evals vs z6 (i_ 14); ptr_eq z7 x; ptr_eq z8 x;
       args z9 ["x"; "y"; "1"]; evals vs z9 (i_ 8); args z10 ["x"; "y"; "5"]; evals vs z10 (i_ 12);
       args z11 ["x"; "y"; "9"]; evals vs z11 (i_ 16); cst z12 (i_ 3); shows z13 "x + y + 9"; evals vs z13 (i_ 16)]).
Proof. go. Qed.

Example node_add_scalar : passes (
  x <- V "x" ;; c1 <- C 1 ;; let vs := [(x, i_ 3)] in
  z1 <- #x +' 15 ;; z2 <- 13 '+ #x ;; z3 <- 2 '+ #z2 +' 6 ;; z4 <- #x +' 0 ;; z5 <- 0 '+ #x ;;
  z6 <- (#x +' 1) +' 2 ;; z7 <- 3 '+ (#x +' 4) ;; z8 <- 4 '+ #c1 ;; z9 <- #c1 +' 5 ;;
  z10 <- (#x +' 4) +' 5 ;; z11 <- 3 '+ (#x +' 4) +' 5 ;;
  ret [shows z1 "x + 15"; evals vs z1 (i_ 18); shows z2 "x + 13"; evals vs z2 (i_ 16); shows z3 "x + 21";
       evals vs z3 (i_ 24); ptr_eq z4 x; ptr_eq z5 x; args z6 ["x"; "3"]; evals vs z6 (i_ 6); args z7 ["x"; "7"];
       evals vs z7 (i_ 10); cst z8 (i_ 5); cst z9 (i_ 6); shows z10 "x + 9"; evals vs z10 (i_ 12);
       shows z11 "x + 12"; evals vs z11 (i_ 15)]).
Proof. go. Qed.

Example node_mul_node : passes (
  x <- V "x" ;; y <- V "y" ;; c0 <- C 0 ;; c1 <- C 1 ;; c2 <- C 2 ;; c3 <- C 3 ;;
  let vs := [(x, i_ 3); (y, i_ 4)] in
  z1 <- #x * #y ;; z2 <- #y * #x ;; z3 <- (#y * #x) * #x ;; z4 <- #y * (#x * #x) ;; z5 <- #z4 * (#x * #z3) ;;
  z6 <- #x * #c0 ;; z7 <- #c0 * #x ;; z8 <- #c1 * #x ;; z9 <- #x * #c1 ;; z10 <- #c1 * #c0 ;; z11 <- #c0 * #c1 ;;
  z12 <- (#x + #y * #x) * (#y * #x + #y) ;; z13 <- #c3 * #c2 ;; z14 <- #c3 * (#x +' 3) ;; z15 <- (#x + #y) * #c2 ;;
  ret [shows z1 "x*y"; evals vs z1 (i_ 12); shows z2 "y*x"; evals vs z2 (i_ 12); shows z3 "y*x*x"; evals vs z3 (i_ 36);
       shows z4 "y*x*x"; evals vs z4 (i_ 36); shows z5 "y*x*x*x*y*x*x"; evals vs z5 (i_ 3888);
       cst z6 n0; cst z7 n0; ptr_eq z8 x; ptr_eq z9 x; cst z10 n0; cst z11 n0;
       shows z12 "(x + y*x)*(y*x + y)"; evals vs z12 (i_ 240); cst z13 (i_ 6);
       shows z14 "3*x + 9"; evals vs z14 (i_ 18); shows z15 "x*2 + y*2"; evals vs z15 (i_ 14)]).
Proof. go. Qed.

Example node_mul_scalar : passes (
  x <- V "x" ;; c1 <- C 1 ;; c2 <- C 2 ;; let vs := [(x, i_ 3)] in
  z1 <- #x *' 15 ;; z2 <- 13 '* #x ;; z3 <- (2 '* #z2) *' 6 ;; z4 <- #x *' 0 ;; z5 <- 0 '* #x ;; z6 <- #x *' 1 ;;
  z7 <- 1 '* #x ;; z8 <- #c1 *' 0 ;; z9 <- 0 '* #c1 ;; z10 <- 3 '* #c2 ;; z11 <- #c2 *' 5 ;;
  z12 <- 4 '* (#x +' 3) ;; z13 <- (4 '+ #x) *' 10 ;;
  ret [shows z1 "x*15"; evals vs z1 (i_ 45); shows z2 "13*x"; evals vs z2 (i_ 39); shows z3 "2*13*x*6";
       evals vs z3 (i_ 468); cst z4 n0; cst z5 n0; ptr_eq z6 x; ptr_eq z7 x; cst z8 n0; cst z9 n0; cst z10 (i_ 6);
       cst z11 (i_ 10); shows z12 "4*x + 12"; evals vs z12 (i_ 24); shows z13 "x*10 + 40"; evals vs z13 (i_ 70)]).
Proof. go. Qed.

Example node_neg : passes (
  x <- V "x" ;; c <- C 5 ;; let vs := [(x, i_ 3)] in
  z1 <- - #x ;; z2 <- - (#x +' 3) ;; z3 <- - #c ;;
  ret [shows z1 "-1*x"; evals vs z1 (i_ (-3)); shows z2 "-1*x + -3"; evals vs z2 (i_ (-6)); cst z3 (i_ (-5))]).
Proof. go. Qed.

Example node_sub_node : passes (
  x <- V "x" ;; y <- V "y" ;; let vs := [(x, i_ 3); (y, i_ 4)] in
  z1 <- #x - #y ;; z2 <- #y - #x ;; z3 <- #x - (#x - #y) ;; z4 <- (#x - #y) - #y ;; z5 <- #z4 - #z3 - #x ;;
  z6 <- (#z1 - #z2) - (#z3 - #z4) ;;
  ret [evals vs z1 (i_ (-1)); shows z1 "x + -1*y"; evals vs z2 (i_ 1); shows z2 "y + -1*x"; evals vs z3 (i_ 4);
       shows z3 "x + -1*x + -1*-1*y"; evals vs z4 (i_ (-5)); evals vs z5 (i_ (-12)); evals vs z6 (i_ (-11))]).
Proof. go. Qed.

Example node_sub_scalar : passes (
  x <- V "x" ;; let vs := [(x, i_ 3)] in
  z1 <- #x -' 15 ;; z2 <- 13 '- #x ;; z3 <- 2 '- #z2 -' 6 ;;
  ret [shows z1 "x + -15"; evals vs z1 (i_ (-12)); shows z2 "-1*x + 13"; evals vs z2 (i_ 10);
       shows z3 "-1*-1*x + -17"; evals vs z3 (i_ (-14))]).
Proof. go. Qed.

Definition q (a b : Z) : F := ndiv (i_ a) (i_ b).
Example node_div_node : passes (
  x <- V "x" ;; y <- V "y" ;; c0 <- C 0 ;; c1 <- C 1 ;; c2 <- C 2 ;; c3 <- C 3 ;;
  let vs := [(x, i_ 3); (y, i_ 4)] in
  z1 <- #x / #y ;; z2 <- (3 '* #x) / (4 '* #y) ;; z3 <- (3 '+ #x) / (#y +' 4) ;; z4 <- #x / (3 '+ #y) ;;
  z5 <- (2 '+ #x) / #y ;; z6 <- #x / #c1 ;; z7 <- #c0 / #x ;; z8 <- #c2 / #c3 ;;
  ret [shows z1 "x/y"; evals vs z1 (q 3 4); shows z2 "3*x/(4*y)"; evals vs z2 (q 9 16);
       shows z3 "(x + 3)/(y + 4)"; evals vs z3 (q 6 8); shows z4 "x/(y + 3)"; evals vs z4 (q 3 7);
       shows z5 "(x + 2)/y"; evals vs z5 (q 5 4); ptr_eq z6 x; cst z7 n0; cst z8 (q 2 3)]).
Proof. go. Qed.

Example node_div_scalar : passes (
  x <- V "x" ;; c1 <- C 1 ;; c2 <- C 2 ;; let vs := [(x, i_ 4)] in
  z1 <- 3 '/ #x ;; z2 <- 3 '/ (#x +' 1) ;; z3 <- #x /' 3 ;; z4 <- (#x +' 1) /' 3 ;; z5 <- #x /' 1 ;;
  z6 <- 0 '/ #x ;; z7 <- 0 '/ #c1 ;; z8 <- #c2 /' 4 ;; z9 <- 5 '/ #c2 ;;
  ret [shows z1 "3/x"; evals vs z1 (q 3 4); shows z2 "3/(x + 1)"; evals vs z2 (q 3 5); shows z3 "x/3";
       evals vs z3 (q 4 3); shows z4 "(x + 1)/3"; evals vs z4 (q 5 3); ptr_eq z5 x; cst z6 n0; cst z7 n0;
       cst z8 (q 2 4); cst z9 (q 5 2)]).
Proof. go. Qed.

(** ** function/*.rs, constant.rs, variable.rs, node_func.rs: partials and derivatives *)
Example partials : passes (
  x <- V "x" ;; y <- V "y" ;; w <- V "w" ;; c <- C 3 ;;
  za <- #x + #y ;; a1 <- partial za x ;; a2 <- partial za y ;; a3 <- partial za w ;;
  zz <- #x +' 2 ;; f <- #y + #zz ;; a4 <- partial f x ;; a5 <- partial f y ;; a6 <- partial f zz ;;
  zm <- #x * #y ;; m1 <- partial zm x ;; m2 <- partial zm y ;; m3 <- partial zm w ;;
  zd <- #x / #y ;; d1 <- partial zd x ;; d2 <- partial zd y ;; d3 <- partial zd w ;;
  zc <- COS #x ;; c1 <- partial zc x ;; c2 <- partial zc y ;;
  k1 <- partial c x ;; k2 <- partial c c ;; v1 <- partial x x ;; v2 <- partial x y ;;
  ret [cst a1 n1; cst a2 n1; cst a3 n0; cst a4 n1; cst a5 n1; cst a6 n0;
       ptr_eq m1 y; ptr_eq m2 x; cst m3 n0; shows d1 "1/y"; shows d2 "-1*x/(y*y)"; cst d3 n0;
       shows c1 "-1*sin(x)"; cst c2 n0; cst k1 n0; cst k2 n0; cst v1 n1; cst v2 n0]).
Proof. go. Qed.

Example add_derivative : T2 (fun O =>
  x <- V "x" ;; y <- V "y" ;;
  z1 <- #x +' 1 ;; z1x <- derivative z1 x ;; z1y <- derivative z1 y ;;
  z2 <- #x + #y ;; z2x <- derivative z2 x ;; z2y <- derivative z2 y ;;
  z3 <- (#x +' 1) + (#x +' 3) + (#y + (#x +' 5)) ;; z3x <- derivative z3 x ;; z3y <- derivative z3 y ;;
  z4 <- #x + #x ;; z4x <- derivative z4 x ;; z4y <- derivative z4 y ;;
  f1 <- #x +' 1 + #y ;; z5 <- #f1 + #f1 ;; z5x <- derivative z5 x ;; z5y <- derivative z5 y ;;
  ret [cst z1x n1; cst z1y n0; cst z2x n1; cst z2y n1; cst z3x (i_ 3); cst z3y n1; cst z4x (i_ 2); cst z4y n0;
       evals [(x, i_ 3); (y, i_ 4)] z5 (i_ 16); cst z5x (i_ 2); cst z5y (i_ 2)]).
Proof. go. Qed.

Example mul_derivative : T2 (fun O =>
  x <- V "x" ;; y <- V "y" ;;
  z1 <- 3 '* #x ;; z1x <- derivative z1 x ;; z1y <- derivative z1 y ;;
  z2 <- #x * #y ;; z2x <- derivative z2 x ;; z2y <- derivative z2 y ;;
  z3 <- #y * (#x -' 3 - #y * #y) ;; z3x <- derivative z3 x ;; z3y <- derivative z3 y ;;
  f1 <- 3 '* #x ;; z4 <- #f1 * (#f1 * #y) ;; z4x <- derivative z4 x ;; z4y <- derivative z4 y ;;
  ret [cst z1x (i_ 3); cst z1y n0; ptr_eq z2x y; ptr_eq z2y x; ptr_eq z3x y;
       shows z3y "y*-1*y + y*-1*y + x + -1*y*y + -3"; shows z4x "3*x*y*3 + 3*x*y*3"; shows z4y "3*x*3*x"]).
Proof. go. Qed.

Example div_derivative : T2 (fun O =>
  x <- V "x" ;; y <- V "y" ;;
  z1 <- #x /' 3 ;; z1x <- derivative z1 x ;; z1y <- derivative z1 y ;;
  z2 <- 4 '/ #x ;; z2x <- derivative z2 x ;; z2y <- derivative z2 y ;;
  z3 <- 5 '/ (- #y) ;; z3x <- derivative z3 x ;; z3y <- derivative z3 y ;;
  z4 <- (3 '* #x) / (#y - #x) ;; z4x <- derivative z4 x ;; z4y <- derivative z4 y ;;
  f1 <- #x -' 2 ;; z5 <- #f1 / (#f1 +' 3) ;; z5x <- derivative z5 x ;;
  ret [cst z1x (q 1 3); cst z1y n0; shows z2x "-4/(x*x)"; cst z2y n0; cst z3x n0; shows z3y "(-5/(-1*y*-1*y))*-1";
       shows z4x "(-1*3*x/((y + -1*x)*(y + -1*x)))*-1 + (1/(y + -1*x))*3"; shows z4y "-1*3*x/((y + -1*x)*(y + -1*x))";
       shows z5x "(-1*x + 2)/((x + 1)*(x + 1)) + 1/(x + 1)"]).
Proof. go. Qed.

Example trig : T2 (fun O =>
  x <- V "x" ;; y <- V "y" ;; c <- C 5 ;; let vs := [(x, i_ 3)] in
  z1 <- COS #x ;; z1x <- derivative z1 x ;; z1y <- derivative z1 y ;;
  z2 <- COS (5 '* #x + 3 '* #y) ;; z2x <- derivative z2 x ;; z2y <- derivative z2 y ;;
  w1 <- SIN #x ;; w1x <- derivative w1 x ;; w1y <- derivative w1 y ;;
  w2 <- SIN (5 '* #x + 3 '* #y) ;; w2x <- derivative w2 x ;; w2y <- derivative w2 y ;;
  u2 <- COS (3 '* #x +' 5) ;; u3 <- COS #c ;; v2 <- SIN (3 '* #x +' 5) ;; v3 <- SIN #c ;;
  ret [shows z1x "-1*sin(x)"; cst z1y n0; shows z2x "-1*sin(5*x + 3*y)*5"; shows z2y "-1*sin(5*x + 3*y)*3";
       shows w1x "cos(x)"; cst w1y n0; shows w2x "cos(5*x + 3*y)*5"; shows w2y "cos(5*x + 3*y)*3";
       shows z1 "cos(x)"; evals vs z1 (tcos (i_ 3)); shows u2 "cos(3*x + 5)"; evals vs u2 (tcos (i_ 14)); cst u3 (tcos (i_ 5));
       shows w1 "sin(x)"; evals vs w1 (tsin (i_ 3)); shows v2 "sin(3*x + 5)"; evals vs v2 (tsin (i_ 14)); cst v3 (tsin (i_ 5))]).
Proof. go. Qed.

Example const_var : T2 (fun O =>
  x <- V "x" ;; y <- mk_var "y" VarInteger ;; c <- C 3 ;;
  d1 <- derivative c x ;; d2 <- derivative x y ;; d3 <- derivative x x ;;
  ret [String.eqb (name x) "x"; negb (is_integer x); String.eqb (name y) "y"; is_integer y; cst d1 n0; cst d2 n0; cst d3 n1]).
Proof. go. Qed.

(** *** Standard properties *)
Definition coef (p : std_prop F) (v : N) (c : F) : bool := match hget ptr_eq v (p_a p) with Some d => fe d c | None => false end.
Definition has (p : std_prop F) (v : N) : bool := hcontains ptr_eq v (p_a p).
Definition na (p : std_prop F) (n : nat) : bool := (length (p_a p) =? n)%nat.
Notation SP := std_properties.
Example std_props : passes (
  x <- V "x" ;; y <- V "y" ;; z <- V "z" ;; c <- C 5 ;;
  a1 <- #x + #x ;; a2 <- #x +' 8 + #y +' 40 + #x ;; a3 <- #x + #y +' 40 + COS #z ;;
  m1 <- 3 '* #x ;; m2 <- #x *' 4 ;; m3 <- 3 '* (#x +' 3) ;; m4 <- (4 '* #x +' 5) *' 10 ;; m5 <- (4 '* #y) * (5 '+ #x) ;;
  d1 <- 3 '/ #x ;; d2 <- (#x +' 10) /' 4 ;; d3 <- 3 '/ (#x + #y) ;; d4 <- (4 '* #x +' 5 + #y) /' 10 ;; d5 <- (4 '* #y) / (5 '+ #x) ;;
  t1 <- COS #x ;; t2 <- 3 '* COS (#x + #y) ;; t3 <- SIN #x ;; t4 <- 3 '* SIN (#x + #y) ;;
  ret [p_affine (SP a1); fe (p_b (SP a1)) n0; na (SP a1) 1; coef (SP a1) x (i_ 2);
       p_affine (SP a2); fe (p_b (SP a2)) (i_ 48); na (SP a2) 2; coef (SP a2) x (i_ 2); coef (SP a2) y n1; negb (has (SP a2) z);
       negb (p_affine (SP a3)); na (SP a3) 3; has (SP a3) x; has (SP a3) y; has (SP a3) z;
       p_affine (SP m1); fe (p_b (SP m1)) n0; na (SP m1) 1; coef (SP m1) x (i_ 3);
       p_affine (SP m2); fe (p_b (SP m2)) n0; na (SP m2) 1; coef (SP m2) x (i_ 4);
       p_affine (SP m3); fe (p_b (SP m3)) (i_ 9); na (SP m3) 1; coef (SP m3) x (i_ 3);
       p_affine (SP m4); fe (p_b (SP m4)) (i_ 50); na (SP m4) 1; coef (SP m4) x (i_ 40);
       negb (p_affine (SP m5)); na (SP m5) 2; has (SP m5) x; has (SP m5) y;
       negb (p_affine (SP d1)); na (SP d1) 1; has (SP d1) x;
       p_affine (SP d2); fe (p_b (SP d2)) (q 10 4); na (SP d2) 1; coef (SP d2) x (q 1 4);
       negb (p_affine (SP d3)); na (SP d3) 2; has (SP d3) x; has (SP d3) y;
       p_affine (SP d4); fe (p_b (SP d4)) (q 1 2); na (SP d4) 2; coef (SP d4) x (q 4 10); coef (SP d4) y (q 1 10);
       negb (p_affine (SP d5)); na (SP d5) 2; has (SP d5) x; has (SP d5) y;
       negb (p_affine (SP t1)); na (SP t1) 1; has (SP t1) x; negb (p_affine (SP t2)); na (SP t2) 2; has (SP t2) x; has (SP t2) y;
       negb (p_affine (SP t3)); na (SP t3) 1; has (SP t3) x; negb (p_affine (SP t4)); na (SP t4) 2; has (SP t4) x; has (SP t4) y;
       p_affine (SP c); fe (p_b (SP c)) (i_ 5); na (SP c) 0; p_affine (SP x); fe (p_b (SP x)) n0; na (SP x) 1; coef (SP x) x n1]).
Proof. go. Qed.

(** ** node_cmp.rs *)
Definition cshows (c : constraint F) (s : string) : bool := String.eqb (constraint_text itext c) s.
Definition cmp (a : M N) (k : ckind) (b : M N) : M (constraint F) := x <- a ;; y <- b ;; new_constraint x k y "".
Definition cmpr (a : M N) (k : ckind) (s : Z) : M (constraint F) := x <- a ;; cmp_ns x k (i_ s) "".
Definition cmpl (s : Z) (k : ckind) (a : M N) : M (constraint F) := x <- a ;; cmp_sn (i_ s) k x "".
Example node_cmp : passes (
  x <- V "x" ;; c <- C 5 ;;
  z1 <- cmp #x Equal #c ;; z2 <- cmp #x LessEqual #c ;; z3 <- cmp #x GreaterEqual (#x +' 3) ;; z4 <- cmp #x LessEqual (5 '* #x) ;;
  w1 <- cmpr #x Equal 6 ;; w2 <- cmpr #x Equal 10 ;; w3 <- cmpr (#x +' 11) Equal 12 ;;
  u1 <- cmpl 4 Equal #x ;; u2 <- cmpl 4 LessEqual (#x +' 3) ;; u3 <- cmpl 5 GreaterEqual (#x *' 5) ;;
  ret [cshows z1 "x == 5"; cshows z2 "x <= 5"; cshows z3 "x >= x + 3"; cshows z4 "x <= 5*x";
       cshows w1 "x == 6"; cshows w2 "x == 10"; cshows w3 "x + 11 == 12"; cshows u1 "4 == x"; cshows u2 "4 <= x + 3"; cshows u3 "5 >= x*5"]).
Proof. go. Qed.

(** ** node_diff.rs *)
Definition npaths (p : pathmap F) (v : N) (lens : list nat) : bool :=
  match hget ptr_eq v p with Some l => if list_eq_dec Nat.eq_dec (map (@length _) l) lens then true else false | None => false end.
Example node_all_simple_paths : T2 (fun O =>
  x <- V "x" ;; y <- V "y" ;; z <- V "z" ;; let vs := [x; y; z] in
  p1 <- lift (all_simple_paths 0 x vs) ;;
  e2 <- #x +' 1 ;; p2 <- lift (all_simple_paths 0 e2 vs) ;;
  e3 <- 4 '+ (3 '* (#z + #x)) ;; p3 <- lift (all_simple_paths 0 e3 vs) ;;
  f4 <- #x +' 5 ;; g4 <- #f4 * (#z +' 3) ;; e4 <- #f4 + #g4 ;; p4 <- lift (all_simple_paths 0 e4 vs) ;;
  ret [npaths p1 x [1]; npaths p1 y []; npaths p1 z []; npaths p2 x [2]; npaths p2 y []; npaths p2 z [];
       npaths p3 x [3]; npaths p3 y []; npaths p3 z [3];
       npaths p4 x [4; 2] || npaths p4 x [2; 4]; npaths p4 y []; npaths p4 z [4]]).
Proof. go. Qed.

(** ** node_std.rs *)
Definition ent {A} (k : A -> bool) (l : list (A * N)) (s : string) : bool :=
  match filter (fun e => k (fst e)) l with [(_, e)] => shows e s | _ => false end.
Definition isv (v : N) (w : N) : bool := ptr_eq w v.
Example node_std_comp : T2 (fun O =>
  x <- V "x" ;; y <- V "y" ;;
  z1 <- 7 '* #x + 10 '* #y +' 5 ;; c1 <- std_components z1 ;;
  z2 <- 7 '* COS #x + (10 '* #y) * #x +' 5 ;; c2 <- std_components z2 ;;
  let h2 := sc_hphi c2 in
  let xy (e : N * N) := (ptr_eq (fst e) x && ptr_eq (snd e) y) || (ptr_eq (fst e) y && ptr_eq (snd e) x) in
  ret [p_affine (sc_prop c1); ptr_eq (sc_phi c1) z1; (length (sc_gphi c1) =? 2)%nat;
       ent (isv x) (sc_gphi c1) "7"; ent (isv y) (sc_gphi c1) "10"; (length (sc_hphi c1) =? 0)%nat;
       negb (p_affine (sc_prop c2)); ptr_eq (sc_phi c2) z2; (length (sc_gphi c2) =? 2)%nat;
       ent (isv x) (sc_gphi c2) "10*y + 7*-1*sin(x)"; ent (isv y) (sc_gphi c2) "x*10"; (length h2 =? 2)%nat;
       ent (fun e => ptr_eq (fst e) x && ptr_eq (snd e) x) h2 "-7*cos(x)"; ent xy h2 "10"]).
Proof. go. Qed.

(** ** constraint.rs *)
Example constr_tests : passes (
  x <- V "x" ;; c4 <- C 4 ;; m4 <- - #c4 ;; let vs := [(x, i_ 3)] in
  c1 <- new_constraint x Equal c4 "foo" ;; c2 <- new_constraint x LessEqual c4 "foo" ;; z3 <- new_constraint x LessEqual m4 "foo" ;;
  z4 <- new_constraint x GreaterEqual c4 "foo" ;; z5 <- new_constraint x GreaterEqual m4 "foo" ;;
  let h := [(c1, i_ 5); (c2, i_ 10)] in
  ret [match hget constr_eqb c1 h with Some v => fe v (i_ 5) | _ => false end; match hget constr_eqb c2 h with Some v => fe v (i_ 10) | _ => false end;
       negb (constr_eqb c1 c2); constr_eqb c1 c1; String.eqb (clabel c1) "foo"; fe (violation vs c1) n1; fe (violation vs c2) n0;
       fe (violation vs z3) (i_ 7); fe (violation vs z4) n1; fe (violation vs z5) n0]).
Proof. go. Qed.

(** ** constraint_std.rs *)
Definition lens (x : cstd F) (l : list nat) : bool :=
  if list_eq_dec Nat.eq_dec [length (cs_ca x); length (cs_cj x); length (cs_a x); length (cs_b x); length (cs_f x); length (cs_j x);
                             length (cs_h x); length (cs_u x); length (cs_l x)] l then true else false.
Definition bnd (l : list (N * F * constraint F)) (k : N -> bool) (v : F) (c : constraint F) : bool :=
  match l with [(x, b, d)] => k x && fe b v && constr_eqb d c | _ => false end.
Definition aent (l : list (nat * N * F)) (row : nat) (k : N -> bool) (v : F) : bool :=
  match filter (fun e => k (snd (fst e))) l with [(r, _, b)] => (r =? row)%nat && fe b v | _ => false end.
Definition jent (l : list (nat * N * N)) (row : nat) (k : N -> bool) (s : string) : bool :=
  match filter (fun e => k (snd (fst e))) l with [(r, _, b)] => (r =? row)%nat && shows b s | _ => false end.
Definition named (s : string) (v : N) : bool := String.eqb (name v) s.
Definition rows_are (r : cstd F * nat * nat) (a j : nat) : bool := (snd (fst r) =? a)%nat && (snd r =? j)%nat.
Definition pair_is (a b : N) (e : N * N) : bool := (ptr_eq (fst e) a && ptr_eq (snd e) b) || (ptr_eq (fst e) b && ptr_eq (snd e) a).
Example constr_std_bounds : T2 (fun O =>
  x <- V "x" ;; c1 <- cmpr #x LessEqual 3 ;; r1 <- constr_std c1 1 2 ;; c2 <- cmpr #x GreaterEqual (-4) ;; r2 <- constr_std c2 1 2 ;;
  ret [lens (fst (fst r1)) [0;0;0;0;0;0;0;1;0]; bnd (cs_u (fst (fst r1))) (isv x) (i_ 3) c1; rows_are r1 1 2;
       lens (fst (fst r2)) [0;0;0;0;0;0;0;0;1]; bnd (cs_l (fst (fst r2))) (isv x) (i_ (-4)) c2; rows_are r2 1 2]).
Proof. go. Qed.
Example constr_std_affine : T2 (fun O =>
  x <- V "x" ;; y <- V "y" ;; e <- 3 '* #x + 4 '* #y +' 6 ;;
  c1 <- cmpr #e Equal 5 ;; r1 <- constr_std c1 1 2 ;; c2 <- cmpr #e LessEqual 5 ;; r2 <- constr_std c2 1 2 ;;
  c3 <- cmpr #e GreaterEqual 5 ;; r3 <- constr_std c3 1 2 ;;
  let p1 := fst (fst r1) in let p2 := fst (fst r2) in let p3 := fst (fst r3) in
  ret [lens p1 [1;0;2;1;0;0;0;0;0]; match cs_ca p1 with [c] => constr_eqb c c1 | _ => false end; aent (cs_a p1) 1 (isv x) (i_ 3);
       aent (cs_a p1) 1 (isv y) (i_ 4); match cs_b p1 with [b] => fe b (i_ (-1)) | _ => false end; rows_are r1 2 2;
       lens p2 [1;0;3;1;0;0;0;1;0]; match cs_ca p2 with [c] => constr_eqb c c2 | _ => false end; aent (cs_a p2) 1 (isv x) (i_ 3);
       aent (cs_a p2) 1 (isv y) (i_ 4); aent (cs_a p2) 1 (named "_s_a1_") (i_ (-1)); match cs_b p2 with [b] => fe b (i_ (-1)) | _ => false end;
       bnd (cs_u p2) (named "_s_a1_") n0 c2; rows_are r2 2 2;
       lens p3 [1;0;3;1;0;0;0;0;1]; match cs_ca p3 with [c] => constr_eqb c c3 | _ => false end; aent (cs_a p3) 1 (isv x) (i_ 3);
       aent (cs_a p3) 1 (isv y) (i_ 4); aent (cs_a p3) 1 (named "_s_a1_") (i_ (-1)); match cs_b p3 with [b] => fe b (i_ (-1)) | _ => false end;
       bnd (cs_l p3) (named "_s_a1_") n0 c3; rows_are r3 2 2]).
Proof. go. Qed.
Example constr_std_nonlinear : T2 (fun O =>
  x <- V "x" ;; y <- V "y" ;; e <- (3 '* #x) * #x + (4 '* #x) * #y + (7 '* #y) * #y +' 8 ;;
  c1 <- cmpr #e Equal 5 ;; r1 <- constr_std c1 1 2 ;; c2 <- cmpr #e LessEqual 5 ;; r2 <- constr_std c2 1 2 ;;
  c3 <- cmpr #e GreaterEqual 5 ;; r3 <- constr_std c3 1 2 ;;
  let p1 := fst (fst r1) in let p2 := fst (fst r2) in let p3 := fst (fst r3) in
  let hs (p : cstd F) := match cs_h p with
    | [h] => ent (pair_is x x) h "6" && ent (pair_is x y) h "4" && ent (pair_is y y) h "14" && (length h =? 3)%nat | _ => false end in
  ret [lens p1 [0;1;0;0;1;2;1;0;0]; match cs_f p1 with [f] => shows f "3*x*x + 4*x*y + 7*y*y + 3" | _ => false end;
       jent (cs_j p1) 2 (isv x) "y*4 + 3*x + x*3"; jent (cs_j p1) 2 (isv y) "7*y + y*7 + 4*x"; hs p1; rows_are r1 1 3;
       lens p2 [0;1;0;0;1;3;1;1;0]; match cs_f p2 with [f] => shows f "3*x*x + 4*x*y + 7*y*y + -1*_s_j2_ + 3" | _ => false end;
       jent (cs_j p2) 2 (isv x) "y*4 + 3*x + x*3"; jent (cs_j p2) 2 (isv y) "7*y + y*7 + 4*x"; jent (cs_j p2) 2 (named "_s_j2_") "-1"; hs p2;
       bnd (cs_u p2) (named "_s_j2_") n0 c2; rows_are r2 1 3;
       lens p3 [0;1;0;0;1;3;1;0;1]; match cs_f p3 with [f] => shows f "3*x*x + 4*x*y + 7*y*y + -1*_s_j2_ + 3" | _ => false end;
       jent (cs_j p3) 2 (isv x) "y*4 + 3*x + x*3"; jent (cs_j p3) 2 (isv y) "7*y + y*7 + 4*x"; jent (cs_j p3) 2 (named "_s_j2_") "-1"; hs p3;
       bnd (cs_l p3) (named "_s_j2_") n0 c3; rows_are r3 1 3]).
Proof. go. Qed.

(** ** model_std.rs *)
Fixpoint all2 (a b : list F) : bool := match a, b with [], [] => true | x :: a, y :: b => fe x y && all2 a b | _, _ => false end.
Definition ints (l : list Z) : list F := map i_ l.
Definition at_ (m : coo F) (i j : nat) (v : F) : bool :=
  match coo_items m with
  | Ok l => match filter (fun e => (fst (fst e) =? i)%nat && (snd (fst e) =? j)%nat) l with [(_, _, w)] => fe w v | _ => false end
  | _ => false
  end.
Definition vi (sp : std_prob F) (k : N -> bool) (i : nat) : bool :=
  match filter (fun e => k (fst e)) (sp_var2index sp) with [(_, j)] => (i =? j)%nat | _ => false end.
Definition ci (m : list (nat * constraint F)) (i : nat) (c : constraint F) : bool :=
  match hget Nat.eqb i m with Some d => constr_eqb c d | None => false end.
Definition len {A} (l : list A) (n : nat) : bool := (length l =? n)%nat.
Definition x0is (p : minlp F) (l : list Z) : bool := match m_x0 p with Some x => all2 x (ints l) | None => false end.

Example model_std_problem_lp : T2 (fun O =>
  x <- V "x" ;; y <- V "y" ;;
  c1 <- cmpr (2 '* #x + #y) Equal 2 ;; c2 <- cmpr #x LessEqual 5 ;; c3 <- cmpr #x GreaterEqual 0 ;; c4 <- cmpr #y LessEqual 5 ;;
  c5 <- cmpr #y GreaterEqual 0 ;; c6 <- cmp (7 '* #x + 5 '* #y -' 10) GreaterEqual (#x + #y -' 3) ;;
  o <- 3 '* #x + 4 '* #y +' 1 ;;
  let m := fold_left add_constraint [c1; c2; c3; c4; c5; c6] (set_objective model_new (Maximize o)) in
  let m := set_init_primals 0 m [(x, i_ 2); (y, i_ 3)] in
  sp <- std_problem m ;;
  match sp_prob sp with
  | PLp p => let b := milp_base (lp_milp p) in
    ret [x0is b [0; 2; 3]%Z; all2 (milp_c (lp_milp p)) (ints [0; -3; -4]%Z); (milp_na (lp_milp p) =? 2)%nat; (milp_nx (lp_milp p) =? 3)%nat;
         (coo_nnz (m_a b) =? 5)%nat; at_ (m_a b) 0 1 (i_ 2); at_ (m_a b) 0 2 n1; at_ (m_a b) 1 0 (i_ (-1)); at_ (m_a b) 1 1 (i_ 6);
         at_ (m_a b) 1 2 (i_ 4); all2 (m_b b) (ints [2; 7]%Z); all2 (m_l b) (ints [0; 0; 0]%Z); all2 (m_u b) (ints [100000000; 5; 5]%Z);
         len (sp_var2index sp) 3; vi sp (isv x) 1; vi sp (isv y) 2; vi sp (named "_s_a1_") 0;
         len (sp_acons sp) 2; ci (sp_acons sp) 0 c1; ci (sp_acons sp) 1 c6; len (sp_jcons sp) 0;
         len (sp_ucons sp) 2; ci (sp_ucons sp) 1 c2; ci (sp_ucons sp) 2 c4;
         len (sp_lcons sp) 3; ci (sp_lcons sp) 0 c6; ci (sp_lcons sp) 1 c3; ci (sp_lcons sp) 2 c5]
  | _ => ret [false]
  end).
Proof. go. Qed.

Example model_std_problem_milp : T2 (fun O =>
  x <- mk_var "x" VarInteger ;; y <- V "y" ;;
  c1 <- cmpr (2 '* #x + #y) Equal 2 ;; c2 <- cmpr #x LessEqual 5 ;; c3 <- cmpr #x GreaterEqual 0 ;; c4 <- cmpr #y LessEqual 5 ;;
  c5 <- cmpr #y GreaterEqual 0 ;; o <- 3 '* #x + 4 '* #y +' 1 ;;
  let m := fold_left add_constraint [c1; c2; c3; c4; c5] (set_objective model_new (Minimize o)) in
  let m := set_init_primals 0 m [(x, i_ 2); (y, i_ 3)] in
  sp <- std_problem m ;;
  match sp_prob sp with
  | PMilp p => let b := milp_base p in
    ret [x0is b [2; 3]%Z; all2 (milp_c p) (ints [3; 4]%Z); (milp_na p =? 1)%nat; (milp_nx p =? 2)%nat;
         (coo_nnz (m_a b) =? 2)%nat; at_ (m_a b) 0 0 (i_ 2); at_ (m_a b) 0 1 n1; all2 (m_b b) (ints [2]%Z);
         all2 (m_l b) (ints [0; 0]%Z); all2 (m_u b) (ints [5; 5]%Z); match m_p b with [true; false] => true | _ => false end;
         len (sp_var2index sp) 2; vi sp (isv x) 0; vi sp (isv y) 1; len (sp_acons sp) 1; ci (sp_acons sp) 0 c1; len (sp_jcons sp) 0;
         len (sp_ucons sp) 2; ci (sp_ucons sp) 0 c2; ci (sp_ucons sp) 1 c4; len (sp_lcons sp) 2; ci (sp_lcons sp) 0 c3; ci (sp_lcons sp) 1 c5]
  | _ => ret [false]
  end).
Proof. go. Qed.

Example model_std_problem_nlp : T2 (fun O =>
  x <- V "x" ;; y <- V "y" ;; f <- 3 '* COS #x + (4 '* #y) * #y -' 10 ;;
  c1 <- cmpr (2 '* #x + 3 '* #y) Equal 7 ;; c2 <- cmp (SIN #x + #x * #y +' 4) LessEqual (#x +' 10) ;; c3 <- cmpl 5 GreaterEqual (#x * #x) ;;
  let m := fold_left add_constraint [c1; c2; c3] (set_objective model_new (Maximize f)) in
  let m := set_init_primals 0 m [(x, i_ 2); (y, i_ 3)] in
  sp <- std_problem m ;;
  match sp_prob sp with
  | PNlp p =>
    p <- lift (nlp_evaluate p (ints [2; 3; 4; 5]%Z)) ;; p <- lift (nlp_combine_h p [q 3 2; q 23 10]) ;;
    let b := nlp_base p in let bf := m_bufs b in let s4 := tsin (i_ 4) in let k4 := tcos (i_ 4) in
    let m3 := nmul (i_ 3) in let sub := nsub in
    ret ([x0is b [0; 0; 2; 3]%Z; fe (b_phi bf) (nneg (sub (nadd (m3 k4) (i_ 100)) (i_ 10)));
         all2 (b_gphi bf) [n0; n0; m3 s4; i_ (-40)]; (coo_nnz (b_hphi bf) =? 2)%nat; at_ (b_hphi bf) 2 2 (m3 k4); at_ (b_hphi bf) 3 3 (i_ (-8));
         (coo_nnz (m_a b) =? 2)%nat; at_ (m_a b) 0 2 (i_ 2); at_ (m_a b) 0 3 (i_ 3); all2 (m_b b) (ints [7]%Z);
         all2 (b_f bf) [sub (sub (sub (nadd (nadd s4 (i_ 20)) (i_ 4)) (i_ 4)) (i_ 10)) (i_ 2); i_ (-14)];
         (coo_nnz (b_j bf) =? 5)%nat; at_ (b_j bf) 0 2 (sub (nadd k4 (i_ 5)) n1); at_ (b_j bf) 0 3 (i_ 4); at_ (b_j bf) 0 0 (i_ (-1));
         at_ (b_j bf) 1 2 (i_ (-8)); at_ (b_j bf) 1 1 (i_ (-1));
         match b_h bf with
         | [h0; h1] => (coo_nnz h0 =? 2)%nat && (coo_nnz h1 =? 1)%nat && at_ h0 2 2 (nneg s4) && at_ h0 3 2 n1 && at_ h1 2 2 (i_ (-2))
         | _ => false
         end;
         (coo_nnz (m_hcomb b) =? 3)%nat; at_ (m_hcomb b) 3 2 (q 3 2);
         match coo_items (m_hcomb b) with
         | Ok l => match filter (fun e => (fst (fst e) =? 2)%nat && (snd (fst e) =? 2)%nat) l with
                   | [(_, _, v); (_, _, w)] => fe v (nmul (q 3 2) (nneg s4)) && fe w (nmul (q 23 10) (i_ (-2)))
                   | _ => false
                   end
         | _ => false
         end;
         all2 (m_l b) (ints [-100000000; 0; -100000000; -100000000]%Z); all2 (m_u b) (ints [0; 100000000; 100000000; 100000000]%Z);
         len (sp_var2index sp) 4; vi sp (isv x) 2; vi sp (isv y) 3; vi sp (named "_s_j0_") 0; vi sp (named "_s_j1_") 1;
         len (sp_acons sp) 1; ci (sp_acons sp) 0 c1; len (sp_jcons sp) 2; ci (sp_jcons sp) 0 c2; ci (sp_jcons sp) 1 c3;
         len (sp_ucons sp) 1; ci (sp_ucons sp) 0 c2; len (sp_lcons sp) 1; ci (sp_lcons sp) 1 c3])%list
  | _ => ret [false]
  end).
Proof. go. Qed.

(** ** model.rs *)
Example model_display : passes (
  x <- V "x" ;; y <- V "y" ;; f <- 4 '* COS #x + #y ;; e <- #x + #y ;;
  c1 <- cmp_ns e GreaterEqual n0 "comb limit" ;; c2 <- cmp_ns x GreaterEqual n0 "x limit" ;; c3 <- cmp_ns y GreaterEqual n0 "y limit" ;;
  let m := add_constraints (set_objective model_new (Minimize f)) [c1; c2; c3] in
  let nl := String "010" "" in
  ret [String.eqb (model_text itext m)
        (nl ++ "Minimize" ++ nl ++ "4*cos(x) + y" ++ nl ++ nl ++ "Subject to" ++ nl ++ "x + y >= 0 : comb limit" ++ nl ++
         "x >= 0 : x limit" ++ nl ++ "y >= 0 : y limit" ++ nl)])%string.
Proof. go. Qed.

(** model_solve_lp2_clp_cmd, with the external solver replaced by its answer: columns are
    the slack, x, y; x is at its lower bound with multiplier 2, y at its upper bound with
    multiplier 5. *)
Definition dual_is (m : model F) (c : constraint F) (v : F) : bool := match hget constr_eqb c (md_duals m) with Some d => fe d v | None => false end.
Definition primal_is (m : model F) (x : N) (v : F) : bool := match hget ptr_eq x (md_primals m) with Some d => fe d v | None => false end.
Example model_solve_lp2 : T2 (fun O =>
  x <- V "x" ;; y <- V "y" ;;
  c1 <- cmpr #x GreaterEqual 100 ;; c2 <- cmpr #x LessEqual 200 ;; c3 <- cmpr #y GreaterEqual 80 ;; c4 <- cmpr #y LessEqual 170 ;;
  c5 <- cmp #y GreaterEqual (- #x +' 200) ;; o <- 2 '* #x - 5 '* #y ;;
  let m := fold_left add_constraint [c1; c2; c3; c4; c5] (set_objective model_new (Minimize o)) in
  k <- now ;;
  let solver (p : problem F) := Ok (inl (Solved, mk_sol (ints [70; 100; 170]%Z) (ints [0]%Z) [] (ints [0; 0; 5]%Z) (ints [0; 2; 0]%Z))) in
  let '(m', r, _) := solve solver m k in
  ret [match r with Returned (inl _) => true | _ => false end; match md_status m' with Some Solved => true | _ => false end;
       dual_is m' c1 (i_ 2); dual_is m' c2 n0; dual_is m' c3 n0; dual_is m' c4 (i_ 5); dual_is m' c5 n0;
       primal_is m' x (i_ 100); primal_is m' y (i_ 170)]).
Proof. go. Qed.

(** ** coo.rs, csr.rs *)
Open Scope nat_scope.
Definition tm : coo F := mk_coo 3 5 [0;2;0;0;1;2;1;1;2;0;2] [0;1;2;0;0;4;1;3;0;1;4] (ints [5;6;1;1;3;-2;1;7;4;2;3]%Z).
Example coo_to_csr :
  coo_new 3 5 (coo_ri tm) (coo_ci tm) (coo_data tm) = Ok tm /\
  to_csr tm = Ok (mk_csr 3 5 [0;4;7;11] [0;2;0;1;0;1;3;1;4;0;4] (ints [5;1;1;2;3;1;7;6;-2;4;3]%Z)).
Proof. split; vm_compute; reflexivity. Qed.
Example coo_times_vec : coo_mul tm (ints [2;4;3;1;7]%Z) = Ok (ints [23;17;39]%Z).
Proof. vm_compute. reflexivity. Qed.
Example csr_sum_duplicates :
  rbind (to_csr tm) sum_duplicates = Ok (mk_csr 3 5 [0;3;6;9] [0;2;1;0;1;3;1;4;0] (ints [6;1;2;3;1;7;6;1;4]%Z)).
Proof. vm_compute. reflexivity. Qed.

(** ** nlp.rs *)
Definition nlp_test_eval : eval_fn F := fun bf x =>
  match x with
  | [x0; x1; x2; x3; x4] =>
    let a := nadd in let m := nmul in let two := i_ 2 in
    Ok (mk_bufs (a (m (m x0 x3) (a (a x0 x1) x2)) x2)
          [a (a (m (m two x0) x3) (m x1 x3)) (m x2 x3); m x0 x3; a (m x0 x3) n1; m x0 (a (a x0 x1) x2); n0]
          (with_data (b_hphi bf) [m two x3; x3; x3; a (a (m two x0) x1) x2; x0; x0])
          [nsub (m (m (m x0 x1) x2) x3) x4; nsub (a (a (a (m x0 x0) (m x1 x1)) (m x2 x2)) (m x3 x3)) (i_ 40)]
          (with_data (b_j bf) [m (m x1 x2) x3; m (m x0 x2) x3; m (m x0 x1) x3; m (m x0 x1) x2; i_ (-1); m two x0; m two x1; m two x2; m two x3])
          (match b_h bf with
           | [h0; h1] => [with_data h0 [m x2 x3; m x1 x3; m x0 x3; m x1 x2; m x0 x2; m x0 x1]; with_data h1 [two; two; two; two]]
           | l => l
           end))
  | _ => Panic PAssert
  end.
Definition zeros (n : nat) : list F := repeat n0 n.
Definition nlp_construct : res (nlp F) :=
  rbind (coo_new 5 5 [0;1;2;3;3;3] [0;0;0;0;1;2] (zeros 6)) (fun hphi =>
  rbind (coo_new 2 5 [0;0;0;0;0;1;1;1;1] [0;1;2;3;4;0;1;2;3] (zeros 9)) (fun j =>
  rbind (coo_new 5 5 [1;2;2;3;3;3] [0;0;1;0;1;2] (zeros 6)) (fun h0 =>
  rbind (coo_new 5 5 [0;1;2;3] [0;1;2;3] (zeros 4)) (fun h1 =>
  nlp_new hphi (coo_from_nnz 0 5 0) [] j [h0; h1] (ints [1;1;1;1;25]%Z) (ints [5;5;5;5;100000000]%Z) (Some (ints [1;5;5;1;0]%Z)) nlp_test_eval)))).
Definition nlp_data (r : res (nlp F)) :=
  match r with
  | Ok p => let b := nlp_base p in let bf := m_bufs b in
    Some (b_phi bf, b_gphi bf, coo_data (b_hphi bf), b_f bf, coo_data (b_j bf), map (@coo_data F) (b_h bf),
          (coo_ri (m_hcomb b), coo_ci (m_hcomb b), coo_data (m_hcomb b)))
  | Panic _ => None
  end.
Example nlp_evaluate_combine_h :
  nlp_data (rbind (rbind nlp_construct (fun p => nlp_evaluate p (ints [1;2;3;4;5]%Z))) (fun p => nlp_combine_h p (ints [3;5]%Z))) =
  Some (i_ 27, ints [28;4;5;6;0]%Z, ints [8;4;4;7;1;1]%Z, ints [19;-10]%Z, ints [24;12;8;6;-1;2;4;6;8]%Z,
        [ints [12;8;4;6;3;2]%Z; ints [2;2;2;2]%Z],
        ([1;2;2;3;3;3;0;1;2;3], [0;0;1;0;1;2;0;1;2;3], ints [36;24;12;18;9;6;10;10;10;10]%Z)).
Proof. vm_compute. reflexivity. Qed.
