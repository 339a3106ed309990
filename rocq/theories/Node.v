(** Expression nodes: construction, operators, evaluation, partials.
    Models src/model/{node,node_base,node_func,constant,variable}.rs and
    src/model/function/*.rs. *)
From Verif Require Import Base Num.

(** variable.rs:11-14. *)
Inductive varkind := VarContinuous | VarInteger.

(** node.rs:21-29 together with the structs behind the [Rc]s
    (constant.rs:10-12, variable.rs:17-20, add.rs:13-15, cos.rs:14-16,
    div.rs:13-15, mul.rs:13-15, sin.rs:14-16).  [id] is the address of the
    [Rc] cell.  A [Node] value is a pointer, so a model node is the whole
    expression hanging off that pointer; sharing shows up as equal ids. *)
Inductive node (T : Type) : Type :=
| NConst (id : nat) (v : T)
| NVar (id : nat) (name : string) (kind : varkind)
| NAdd (id : nat) (args : list (node T))
| NCos (id : nat) (arg : node T)
| NDiv (id : nat) (arg1 arg2 : node T)
| NMul (id : nat) (arg1 arg2 : node T)
| NSin (id : nat) (arg : node T).
Arguments NConst {T}. Arguments NVar {T}. Arguments NAdd {T}. Arguments NCos {T}.
Arguments NDiv {T}. Arguments NMul {T}. Arguments NSin {T}.

Definition nid {T} (n : node T) : nat :=
  match n with
  | NConst i _ | NVar i _ _ | NAdd i _ | NCos i _ | NDiv i _ _ | NMul i _ _ | NSin i _ => i
  end.

(** node.rs:74-88 [impl PartialEq for Node]: same variant and same [Rc]
    (and node.rs:59-72: the hash is that of the address, consistent with it). *)
Definition ptr_eq {T} (a b : node T) : bool :=
  match a, b with
  | NConst i _, NConst j _ | NVar i _ _, NVar j _ _ | NAdd i _, NAdd j _
  | NCos i _, NCos j _ | NDiv i _ _, NDiv j _ _ | NMul i _ _, NMul j _ _
  | NSin i _, NSin j _ => i =? j
  | _, _ => false
  end.

(** node_base.rs:24-34 and the [arguments] of each function. *)
Definition arguments {T} (n : node T) : list (node T) :=
  match n with
  | NConst _ _ | NVar _ _ _ => []
  | NAdd _ args => args
  | NCos _ a | NSin _ a => [a]
  | NDiv _ a b | NMul _ a b => [a; b]
  end.

(** node.rs:35-40. *)
Definition is_constant {T} (n : node T) : bool :=
  match n with NConst _ _ => true | _ => false end.
(** node.rs:51-56. *)
Definition name {T} (n : node T) : string :=
  match n with NVar _ s _ => s | _ => ""%string end.
Definition is_var {T} (n : node T) : bool :=
  match n with NVar _ _ _ => true | _ => false end.
(** variable.rs:25-38. *)
Definition is_integer {T} (n : node T) : bool :=
  match n with NVar _ _ VarInteger => true | _ => false end.

(** A map of variable values, [HashMap<&Node, f64>]. *)
Definition vals T := list (node T * T).

Section Ops.
  Context {T : Type} `{Num T}.
  Local Open Scope m_scope.

  (** node.rs:43-48. *)
  Definition is_constant_with_value (n : node T) (v : T) : bool :=
    match n with NConst _ x => neqb x v | _ => false end.

  (** node_base.rs:48-64; add.rs:46-48 ([sum] folds from 0.; since Rust 1.83 it
      folds from -0., which differs only in the sign of a zero result), cos.rs:45-47,
      div.rs:47-49, mul.rs:47-49, sin.rs:45-47. *)
  Fixpoint evaluate (var_values : vals T) (n : node T) : T :=
    match n with
    | NConst _ v => v
    | NVar _ _ _ => match hget ptr_eq n var_values with Some x => x | None => nnan end
    | NAdd _ args => fold_left (fun acc x => nadd acc (evaluate var_values x)) args n0
    | NCos _ a => ncos (evaluate var_values a)
    | NDiv _ a b => ndiv (evaluate var_values a) (evaluate var_values b)
    | NMul _ a b => nmul (evaluate var_values a) (evaluate var_values b)
    | NSin _ a => nsin (evaluate var_values a)
    end.

  (** *** Constructors ([Rc::new]). *)
  (** constant.rs:17-23. *)
  Definition mk_const (v : T) : M (node T) := fun k => Ok (NConst k v, S k).
  (** variable.rs:44-61. *)
  Definition mk_var (s : string) (kind : varkind) : M (node T) := fun k => Ok (NVar k s kind, S k).
  (** add.rs:20-28, with its assertion. *)
  Definition mk_add (args : list (node T)) : M (node T) := fun k =>
    if length args <? 2 then Panic PAssert else Ok (NAdd k args, S k).
  (** cos.rs:21-27, div.rs:20-26, mul.rs:20-26, sin.rs:21-27. *)
  Definition mk_cos (a : node T) : M (node T) := fun k => Ok (NCos k a, S k).
  Definition mk_div (a b : node T) : M (node T) := fun k => Ok (NDiv k a b, S k).
  Definition mk_mul (a b : node T) : M (node T) := fun k => Ok (NMul k a b, S k).
  Definition mk_sin (a : node T) : M (node T) := fun k => Ok (NSin k a, S k).

  (** *** Addition. *)
  (** The inner loop over the arguments of a sum, node.rs:159-164. *)
  Definition add_inner (st : T * list (node T)) (x : node T) : T * list (node T) :=
    let '(c, args) := st in
    match x with
    | NConst _ v => (nadd c v, args)
    | _ => (c, args ++ [x])
    end.
  (** The body of [for a in &[self, rhs]], node.rs:155-168. *)
  Definition add_outer (st : T * list (node T)) (a : node T) : T * list (node T) :=
    let '(c, args) := st in
    match a with
    | NConst _ v => (nadd c v, args)
    | NAdd _ xs => fold_left add_inner xs (c, args)
    | _ => (c, args ++ [a])
    end.
  (** node.rs:152-176 ("Other" branch), repeated at 194-218 and 231-255. *)
  Definition add_other (a b : node T) : M (node T) :=
    let '(c, args) := fold_left add_outer [a; b] (n0, []) in
    match args with
    | [] => mk_const c
    | _ =>
      if negb (neqb c n0) then x <- mk_const c ;; mk_add (args ++ [x])
      else mk_add args
    end.
  (** node.rs:135-179 [Node + Node] (all four reference combinations). *)
  Definition add_nn (self rhs : node T) : M (node T) :=
    if is_constant_with_value self n0 then ret rhs
    else if is_constant_with_value rhs n0 then ret self
    else add_other self rhs.
  (** node.rs:184-220 [Node + f64]. *)
  Definition add_ns (self : node T) (rhs : T) : M (node T) :=
    if neqb rhs n0 then ret self
    else x <- mk_const rhs ;; add_other self x.
  (** node.rs:221-257 [f64 + Node]. *)
  Definition add_sn (self : T) (rhs : node T) : M (node T) :=
    if neqb self n0 then ret rhs
    else x <- mk_const self ;; add_other x rhs.

  (** *** Multiplication. *)
  (** [&s * x] for a constant [s], recursive over sums: node.rs:268-318 read
      with [self] a constant; and the mirror image. *)
  Fixpoint mul_cn (s : node T) (r : node T) {struct r} : M (node T) :=
    if is_constant_with_value s n0 || is_constant_with_value r n0 then mk_const n0
    else if is_constant_with_value s n1 then ret r
    else if is_constant_with_value r n1 then ret s
    else if is_constant s && is_constant r then
      mk_const (nmul (evaluate [] s) (evaluate [] r))
    else match r with
         | NAdd _ args => l <- mapM (mul_cn s) args ;; mk_add l
         | _ => mk_mul s r
         end.
  Fixpoint mul_nc (s : node T) (r : node T) {struct s} : M (node T) :=
    if is_constant_with_value s n0 || is_constant_with_value r n0 then mk_const n0
    else if is_constant_with_value s n1 then ret r
    else if is_constant_with_value r n1 then ret s
    else if is_constant s && is_constant r then
      mk_const (nmul (evaluate [] s) (evaluate [] r))
    else match s with
         | NAdd _ args => l <- mapM (fun x => mul_nc x r) args ;; mk_add l
         | _ => mk_mul s r
         end.
  (** node.rs:268-318 [Node * Node].  The recursive calls of the Rust code are
      [&s * x] with [s] constant and [x * &r] with [r] constant; they are
      [mul_cn] and [mul_nc] (equal to [mul_nn] there: lemma [mul_nn_eq]). *)
  Definition mul_nn (s r : node T) : M (node T) :=
    if is_constant_with_value s n0 || is_constant_with_value r n0 then mk_const n0
    else if is_constant_with_value s n1 then ret r
    else if is_constant_with_value r n1 then ret s
    else if is_constant s && is_constant r then
      mk_const (nmul (evaluate [] s) (evaluate [] r))
    else match s, r with
         | NConst _ _, NAdd _ args => l <- mapM (mul_cn s) args ;; mk_add l
         | NAdd _ args, NConst _ _ => l <- mapM (fun x => mul_nc x r) args ;; mk_add l
         | _, _ => mk_mul s r
         end.
  (** node.rs:322-363 [Node * f64]. *)
  Fixpoint mul_ns (s : node T) (r : T) {struct s} : M (node T) :=
    if is_constant s || neqb r n0 then
      match s with
      | NConst _ x => mk_const (nmul x r)
      | _ => mk_const n0
      end
    else if is_constant_with_value s n1 then mk_const r
    else if neqb r n1 then ret s
    else match s with
         | NAdd _ args => l <- mapM (fun x => mul_ns x r) args ;; mk_add l
         | _ => c <- mk_const r ;; mk_mul s c
         end.
  (** node.rs:364-404 [f64 * Node]. *)
  Fixpoint mul_sn (s : T) (r : node T) {struct r} : M (node T) :=
    if neqb s n0 || is_constant r then
      match r with
      | NConst _ x => mk_const (nmul s x)
      | _ => mk_const n0
      end
    else if neqb s n1 then ret r
    else if is_constant_with_value r n1 then mk_const s
    else match r with
         | NAdd _ args => l <- mapM (fun x => mul_sn s x) args ;; mk_add l
         | _ => c <- mk_const s ;; mk_mul c r
         end.

  (** node.rs:415-429 [-Node]. *)
  Definition neg_n (n : node T) : M (node T) :=
    match n with
    | NConst _ v => mk_const (nmul nm1 v)
    | _ => mul_sn nm1 n
    end.
  (** node.rs:434-443 [Node - Node]. *)
  Definition sub_nn (self rhs : node T) : M (node T) :=
    m <- mul_sn nm1 rhs ;; add_nn self m.
  (** node.rs:447-452 [Node - f64]. *)
  Definition sub_ns (self : node T) (rhs : T) : M (node T) :=
    c <- mk_const rhs ;; m <- mul_sn nm1 c ;; add_nn self m.
  (** node.rs:453-458 [f64 - Node]. *)
  Definition sub_sn (self : T) (rhs : node T) : M (node T) :=
    c <- mk_const self ;; m <- mul_sn nm1 rhs ;; add_nn c m.

  (** node.rs:469-503 [Node / Node]. *)
  Definition div_nn (self rhs : node T) : M (node T) :=
    if is_constant_with_value rhs n0 then fail PDivZero
    else if is_constant_with_value rhs n1 then ret self
    else if is_constant_with_value self n0 then mk_const n0
    else if is_constant self && is_constant rhs then
      mk_const (ndiv (evaluate [] self) (evaluate [] rhs))
    else mk_div self rhs.
  (** node.rs:507-538 [Node / f64]. *)
  Definition div_ns (self : node T) (rhs : T) : M (node T) :=
    if neqb rhs n0 then fail PDivZero
    else if neqb rhs n1 then ret self
    else if is_constant_with_value self n0 then mk_const n0
    else if is_constant self then mk_const (ndiv (evaluate [] self) rhs)
    else c <- mk_const rhs ;; mk_div self c.
  (** node.rs:539-570 [f64 / Node]. *)
  Definition div_sn (self : T) (rhs : node T) : M (node T) :=
    if is_constant_with_value rhs n0 then fail PDivZero
    else if is_constant_with_value rhs n1 then mk_const self
    else if neqb self n0 then mk_const n0
    else if is_constant rhs then mk_const (ndiv self (evaluate [] rhs))
    else c <- mk_const self ;; mk_div c rhs.

  (** node_func.rs:20-37. *)
  Definition cos_n (n : node T) : M (node T) :=
    match n with
    | NConst _ v => mk_const (ncos v)
    | _ => mk_cos n
    end.
  Definition sin_n (n : node T) : M (node T) :=
    match n with
    | NConst _ v => mk_const (nsin v)
    | _ => mk_sin n
    end.

  (** [partial]: constant.rs:38, variable.rs:66-78, add.rs:37-44, cos.rs:36-43,
      div.rs:35-45, mul.rs:35-45, sin.rs:36-43. *)
  Definition partial (self arg : node T) : M (node T) :=
    match self with
    | NConst _ _ => mk_const n0
    | NVar i _ _ =>
      match arg with
      | NVar j _ _ => if i =? j then mk_const n1 else mk_const n0
      | _ => mk_const n0
      end
    | NAdd _ args =>
      if existsb (fun a => ptr_eq a arg) args then mk_const n1 else mk_const n0
    | NCos _ a =>
      if ptr_eq a arg then s <- sin_n a ;; neg_n s else mk_const n0
    | NDiv _ a b =>
      if ptr_eq a arg then div_sn n1 b
      else if ptr_eq b arg then
        x <- neg_n a ;; y <- mul_nn b b ;; div_nn x y
      else mk_const n0
    | NMul _ a b =>
      if ptr_eq a arg then ret b
      else if ptr_eq b arg then ret a
      else mk_const n0
    | NSin _ a =>
      if ptr_eq a arg then cos_n a else mk_const n0
    end.
End Ops.
