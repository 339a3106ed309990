(** Displayed text: the [Display] implementations of nodes, constraints and models. *)
From Verif Require Import Base Num Node Constraint ModelStd.
Local Open Scope string_scope.

Section Display.
  Context {T : Type}.
  (** [Display] of [f64], not modelled. *)
  Variable num_text : T -> string.

  Definition paren (s : string) : string := "(" ++ s ++ ")".
  (** node.rs:106-119 (and 121-133, [Debug], the same); constant.rs:41-45, variable.rs:81-85,
      add.rs:79-92, cos.rs:59-63, div.rs:75-90, mul.rs:76-89, sin.rs:59-63. *)
  Fixpoint show (n : node T) : string :=
    match n with
    | NConst _ v => num_text v
    | NVar _ s _ => s
    | NAdd _ args =>
      (fix join (l : list (node T)) : string :=
         match l with
         | [] => ""
         | [x] => show x
         | x :: l' => show x ++ " + " ++ join l'
         end) args
    | NCos _ a => "cos(" ++ show a ++ ")"
    | NDiv _ a b =>
      (match a with NAdd _ _ | NDiv _ _ _ => paren (show a) | _ => show a end) ++ "/" ++
      (match b with NAdd _ _ | NMul _ _ _ | NDiv _ _ _ => paren (show b) | _ => show b end)
    | NMul _ a b =>
      (match a with NAdd _ _ | NDiv _ _ _ => paren (show a) | _ => show a end) ++ "*" ++
      (match b with NAdd _ _ => paren (show b) | _ => show b end)
    | NSin _ a => "sin(" ++ show a ++ ")"
    end.

  (** constraint.rs:99-107. *)
  Definition rel_text (k : ckind) : string := match k with Equal => "==" | LessEqual => "<=" | GreaterEqual => ">=" end.
  Definition constraint_text (c : constraint T) : string := show (clhs c) ++ " " ++ rel_text (ckd c) ++ " " ++ show (crhs c).

  Definition nl : string := String "010" "".
  (** model.rs:169-194. *)
  Definition model_text (m : model T) : string :=
    (match md_objective m with
     | Minimize _ => nl ++ "Minimize" ++ nl
     | Maximize _ => nl ++ "Maximize" ++ nl
     | EmptyObj => nl ++ "Find point" ++ nl
     end) ++
    (match md_objective m with
     | Minimize x => show x ++ nl
     | Maximize x => show x ++ nl
     | EmptyObj => nl
     end) ++
    (if (0 <? length (md_constraints m))%nat then
       nl ++ "Subject to" ++ nl ++
       String.concat "" (map (fun c => if negb (clabel c =? "") then constraint_text c ++ " : " ++ clabel c ++ nl
                                       else constraint_text c ++ nl) (md_constraints m))
     else "").
End Display.
