(** Numbers.  The code computes with [f64]; the model is written once over any
    type with these operations (no laws are assumed), and instantiated below. *)
From Verif Require Import Base.
From Coq Require Import Floats.SpecFloat Reals.

Class Num (T : Type) := {
  nlit : Z -> T;                       (* integer-valued float literals *)
  nadd : T -> T -> T;
  nsub : T -> T -> T;
  nmul : T -> T -> T;
  ndiv : T -> T -> T;
  nneg : T -> T;
  nabs : T -> T;
  nmax : T -> T -> T;                  (* f64::max *)
  nsin : T -> T;
  ncos : T -> T;
  nnan : T;                            (* std::f64::NAN *)
  neqb : T -> T -> bool;               (* == *)
  nltb : T -> T -> bool;               (* <  *)
  nleb : T -> T -> bool                (* <= *)
}.

Definition n0 {T} `{Num T} : T := nlit 0.
Definition n1 {T} `{Num T} : T := nlit 1.
(** The literal [-1.]. *)
Definition nm1 {T} `{Num T} : T := nneg (nlit 1).
(** model_std.rs:20  [const INF: f64 = 1e8]. *)
Definition INF {T} `{Num T} : T := nlit 100000000.

(** ** Exact arithmetic: reals with one undefined value.

    [None] stands for everything that is not a finite number: NaN, the
    infinities, the result of a division by zero, the value of a variable
    missing from the map.  It is absorbing and compares false with everything.
    [f64::max] ignores it, as Rust's does NaN. *)
Definition X := option R.

Definition x2 (f : R -> R -> R) (a b : X) : X :=
  match a, b with Some x, Some y => Some (f x y) | _, _ => None end.
Definition x1 (f : R -> R) (a : X) : X :=
  match a with Some x => Some (f x) | None => None end.
Definition xdiv (a b : X) : X :=
  match a, b with
  | Some x, Some y => if Req_EM_T y 0 then None else Some (x / y)%R
  | _, _ => None
  end.
Definition xmax (a b : X) : X :=
  match a, b with
  | Some x, Some y => Some (Rmax x y)
  | None, _ => b
  | _, None => a
  end.
Definition xeqb (a b : X) : bool :=
  match a, b with Some x, Some y => if Req_EM_T x y then true else false | _, _ => false end.
Definition xltb (a b : X) : bool :=
  match a, b with Some x, Some y => if Rlt_dec x y then true else false | _, _ => false end.
Definition xleb (a b : X) : bool :=
  match a, b with Some x, Some y => if Rle_dec x y then true else false | _, _ => false end.

#[export] Instance NumX : Num X := {
  nlit z := Some (IZR z);
  nadd := x2 Rplus; nsub := x2 Rminus; nmul := x2 Rmult; ndiv := xdiv;
  nneg := x1 Ropp; nabs := x1 Rabs; nmax := xmax;
  nsin := x1 sin; ncos := x1 cos; nnan := None;
  neqb := xeqb; nltb := xltb; nleb := xleb
}.

(** ** IEEE 754 binary64, round to nearest even ([f64]).

    [S754_nan] is the only NaN (payloads are not modelled).  Sine and cosine
    come from the platform's libm and are parameters. *)
Definition F := spec_float.
Definition fprec : Z := 53.
Definition femax : Z := 1024.
Definition flit (z : Z) : F := binary_normalize fprec femax z 0 false.
Definition fmax (a b : F) : F :=
  match a, b with
  | S754_nan, _ => b
  | _, S754_nan => a
  | _, _ => if SFltb a b then b else a
  end.

Definition NumF (fsin fcos : F -> F) : Num F := {|
  nlit := flit;
  nadd := SFadd fprec femax; nsub := SFsub fprec femax;
  nmul := SFmul fprec femax; ndiv := SFdiv fprec femax;
  nneg := SFopp; nabs := SFabs; nmax := fmax;
  nsin := fsin; ncos := fcos; nnan := S754_nan;
  neqb := SFeqb; nltb := SFltb; nleb := SFleb
|}.
(** An instance for examples that contain no sine or cosine of a constant. *)
Definition NumF0 : Num F := NumF (fun _ => S754_nan) (fun _ => S754_nan).
