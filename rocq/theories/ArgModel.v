(** argument-parser: /repo/lib/llib/argparse.l lines 65-79, 125-166 and 182-253.

    Simplifications: the texts for help and errors are left out, an error is [None]; functions given as action, check and reader are functions of their argument without effects
    (one that does not return, like that of --help, gives [None]); a destination is a string, not an uninterned symbol; arguments wanted are kept by name, which the parser keeps different. *)
From Coq Require Import ZArith Bool String Ascii List.
Import ListNotations.
Open Scope Z_scope.

Inductive val := VNil | VT | VInt (n : Z) | VStr (s : string) | VOther (n : nat) | VCons (a d : val).
Definition val_eq_dec (a b : val) : {a = b} + {a <> b}.
Proof. decide equality; [apply Z.eq_dec | apply string_dec | apply Nat.eq_dec]. Defined.
Definition bind {A B} (o : option A) (f : A -> option B) : option B := match o with Some x => f x | None => None end.

(** ** names of flags: 65-79 *)
Definition dash : ascii := "-". Definition equals : ascii := "=".
Fixpoint left_trim (s : string) : string := match s with String c r => if Ascii.eqb c dash then left_trim r else s | EmptyString => EmptyString end.
Definition flag_name_p (s : string) : bool := negb (String.eqb (left_trim s) "") && match s with String c _ => Ascii.eqb c dash | EmptyString => false end.
Fixpoint find_equals (s : string) : bool := match s with String c r => Ascii.eqb c equals || find_equals r | EmptyString => false end.
Definition check_flag (s : string) : bool := flag_name_p s && negb (find_equals s).
(** name and value; no value is [setp] nil *)
Fixpoint split_flag (s : string) : string * option string :=
  match s with
  | EmptyString => (EmptyString, None)
  | String c r => if Ascii.eqb c equals then (EmptyString, Some r) else let (n, v) := split_flag r in (String c n, v)
  end.
Definition upcase_char (c : ascii) : ascii := let n := nat_of_ascii c in if (97 <=? n)%nat && (n <=? 122)%nat then ascii_of_nat (n - 32) else c.
Fixpoint upcase (s : string) : string := match s with String c r => String (upcase_char c) (upcase r) | EmptyString => EmptyString end.
Definition make_flag_dest (s : string) : string := left_trim (upcase s).

(** ** one argument: 125-166 *)
Inductive action := Store | StoreTrue | StoreFalse | StoreConst | Count | Append | Call0 (r : option val) | Call1 (f : val -> option val).
Record argument := Arg { value : val; act : action; const : val; choices : list val; check : option (val -> bool); read : option (string -> option val); required : bool }.
Definition set_value (a : argument) (v : val) : argument := Arg v (act a) (const a) (choices a) (check a) (read a) (required a).
(** 129-146: the default of the flags that store t or nil is not used *)
Definition init_argument (default : val) (act : action) (const : val) (choices : list val) (check : option (val -> bool)) (read : option (string -> option val)) (required : bool) : argument :=
  Arg (match act with StoreTrue => VNil | StoreFalse => VT | _ => default end) act const choices check read required.
Definition functionp (x : action) : bool := match x with Call0 _ | Call1 _ => true | _ => false end.
(** 148-158 *)
Definition store (a : argument) (v : val) : option argument :=
  bind (match read a with Some r => if functionp (act a) then Some v else match v with VStr s => r s | _ => None end | None => Some v end) (fun v =>
  if negb match check a with Some f => f v | None => true end then None
  else if match choices a with [] => false | c => negb (existsb (fun x => if val_eq_dec v x then true else false) c) end then None
  else Some (set_value a v)).
(** (append current (list x)) *)
Fixpoint append1 (l x : val) : option val := match l with VNil => Some (VCons x VNil) | VCons a d => bind (append1 d x) (fun r => Some (VCons a r)) | _ => None end.
Definition one_more (v : val) : option val := match v with VNil => Some (VInt 1) | VInt n => Some (VInt (n + 1)) | _ => None end.
(** what :parse-args does for one flag, 231-246, with the methods 159-166 *)
Definition run1 (a : argument) (v : option string) : option argument :=
  match act a, v with
  | Call1 f, Some s => bind (match read a with Some r => r s | None => Some (VStr s) end) (fun x => bind (f x) (store a))
  | Call0 r, None => bind r (store a)
  | Store, Some s => store a (VStr s)
  | Append, Some s => bind (store a (VStr s)) (fun a' => bind (append1 (value a) (value a')) (fun l => Some (set_value a' l)))
  | StoreTrue, None => store a VT
  | StoreFalse, None => store a VNil
  | StoreConst, None => store a (const a)
  | Count, None => bind (one_more (value a)) (store a)
  | _, _ => None
  end.

(** ** the parser: 168-253 *)
Record parser := Parser { flaglst : list (string * string); plist : list (string * argument) }.
Fixpoint assoc {A} (k : string) (l : list (string * A)) : option A := match l with [] => None | (x, v) :: r => if String.eqb k x then Some v else assoc k r end.
(** an argument as it is declared *)
Record decl := Decl { flags : list string; dest : option string; arg : argument }.
Definition decl_name (d : decl) : option string := match dest d, flags d with Some s, _ => Some (make_flag_dest s) | None, f :: _ => Some (make_flag_dest f) | None, [] => None end.
Fixpoint push_flags (name : string) (fs : list string) (l : list (string * string)) : option (list (string * string)) :=
  match fs with [] => Some l | f :: r => match assoc f l with Some _ => None | None => push_flags name r ((f, name) :: l) end end.
Definition add_argument (p : parser) (d : decl) : option parser :=
  bind (decl_name d) (fun name =>
  if negb (forallb check_flag (flags d)) then None
  else match assoc name (plist p) with Some _ => None | None => bind (push_flags name (flags d) (flaglst p)) (fun l => Some (Parser l ((name, arg d) :: plist p))) end).
Fixpoint declare (p : parser) (ds : list decl) : option parser := match ds with [] => Some p | d :: r => bind (add_argument p d) (fun p => declare p r) end.
Definition no_arguments : parser := Parser [] [].
Fixpoint replace (k : string) (a : argument) (l : list (string * argument)) : list (string * argument) :=
  match l with [] => [] | (x, v) :: r => if String.eqb k x then (x, a) :: r else (x, v) :: replace k a r end.
Fixpoint delete_name (k : string) (l : list string) : list string := match l with [] => [] | x :: r => if String.eqb k x then r else x :: delete_name k r end.
(** 221-248 *)
Fixpoint parse_loop (fl : list (string * string)) (given : list string) (pl : list (string * argument)) (wanted : list string) : option (list (string * argument) * list string) :=
  match given with
  | [] => Some (pl, wanted)
  | flag :: r =>
      let (name, v) := split_flag flag in
      match assoc name fl with
      | None => None
      | Some n => match assoc n pl with None => None | Some a => bind (run1 a v) (fun a' => parse_loop fl r (replace n a' pl) (delete_name n wanted)) end
      end
  end.
(** 215-253 *)
Definition parse_args (p : parser) (argv : list string) : option parser :=
  match parse_loop (flaglst p) (filter flag_name_p argv) (plist p) (map fst (filter (fun x => required (snd x)) (plist p))) with
  | Some (pl, []) => Some (Parser (flaglst p) pl)
  | _ => None
  end.
(** the method of the argument's name, 212 *)
Definition get_value (p : parser) (name : string) : option val := bind (assoc name (plist p)) (fun a => Some (value a)).
