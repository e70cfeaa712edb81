(** Model of the binding of parameters to arguments: the interpreter's funlambda and bindkeyparams
    (lisp/c/eval.c:265-431) and the compiled route, parsekeyparams (lisp/c/eval.c:237-263) with the code the compiler
    puts after it (lisp/comp/comp.l:1051-1073, lisp/comp/trans.l:146-156).

    Symbols are numbers; the five lambda-list keywords come first.  Keyword symbols are numbered apart, 0 being
    :allow-other-keys.  The evaluator is a parameter: it gets the form, the variables in force and a state, and gives
    a value and a state, or signals an error.

    Simplifications: variables are lexical and there are no declarations, so vbind (eval.c:193-218) finds a second
    binding of the same name in the frames of this call only and always reports it; the words of the stack and
    garbage collection are left out; "argp[n]" read one past the last argument (eval.c:330) is left out because the
    next test is the error for unpaired keywords. *)
From Coq Require Export ZArith List Lia Bool Arith.
Export ListNotations.

Inductive val := VNil | VKey (k : nat) | VInt (z : Z) | VCons (a d : val).
Fixpoint vlist (l : list val) : val := match l with [] => VNil | a :: l => VCons a (vlist l) end.
Definition is_nil (v : val) : bool := match v with VNil => true | _ => false end.

Definition OPTIONAL := 0. Definition REST := 1. Definition KEY := 2. Definition AUX := 3. Definition ALLOW := 4.
Definition K_ALLOW := 0.              (* the keyword :allow-other-keys *)
Definition KEYWORDPARAMETERLIMIT := 128.     (* eus.h:147 *)

Inductive err :=
| E_MISMATCHARG | E_KEYPARAM | E_NOKEYPARAM (k : nat) | E_MULTIDECL | E_NOSYMBOL | E_NOVARIABLE | E_PARAMETER | E_USER
| E_EVAL.                              (* an error inside a default form *)

Section Binding.
  Context {F St : Type}.                                            (* forms and states *)
  Variable ev : F -> (nat -> option val) -> St -> option (val * St).   (* eval *)
  Variable kwof : nat -> nat.          (* intern(pname of the variable, keyword package) *)
  Variable constant : nat -> bool.     (* vtype == V_CONSTANT *)
  Variable outer : nat -> option val.  (* the variables outside of the call *)

  (** An element of a lambda list: s, (s) or (s init), ((:k s)) or ((:k s) init). *)
  Inductive item := ISym (s : nat) | IInit (s : nat) (i : option F) | IKeyInit (k s : nat) (i : option F).

  Definition env := list (nat * val).  (* the frames of this call, the newest first *)
  Definition lookup (e : env) (x : nat) : option val :=
    match find (fun p => fst p =? x) e with Some p => Some (snd p) | None => outer x end.

  Inductive result := Bound (e : env) (s : St) | Err (x : err).

  (** eval.c:193-218 *)
  Definition vbind (x : nat) (v : val) (e : env) : env + err :=
    if constant x then inr E_NOVARIABLE
    else if existsb (fun p => fst p =? x) e then inr E_MULTIDECL
    else inl ((x, v) :: e).

  (** the value of an init form; without one it is NIL *)
  Definition init_value (i : option F) (e : env) (s : St) : option (val * St) :=
    match i with Some f => ev f (lookup e) s | None => Some (VNil, s) end.

  (** eval.c:425-431 *)
  Fixpoint bindaux (formal : list item) (e : env) (s : St) : result :=
    match formal with
    | [] => Bound e s
    | ISym x :: formal =>
        match vbind x VNil e with inl e => bindaux formal e s | inr er => Err er end
    | IInit x i :: formal =>
        match init_value i e s with
        | Some (v, s) => match vbind x v e with inl e => bindaux formal e s | inr er => Err er end
        | None => Err E_EVAL
        end
    | IKeyInit _ _ _ :: _ => Err E_NOSYMBOL
    end.

  (** ** eval.c:265-345 [bindkeyparams] *)
  Record entry := mkEntry { ekey : nat; evar : nat; einit : option (option F) }.   (* None: inits[i] == UNBOUND *)
  Inductive table := Table (t : list entry) (allow : bool) | TErr (x : err).

  (** eval.c:285-324; [n] is nokeys *)
  Fixpoint parse_keys (formal : list item) (n : nat) : table :=
    let add k x i rest :=
      if KEYWORDPARAMETERLIMIT <=? S n then TErr E_USER
      else match rest with Table t a => Table (mkEntry k x (Some i) :: t) a | r => r end in
    match formal with
    | [] => Table [] false
    | ISym x :: formal =>
        if x =? ALLOW then
          match formal with
          | [] => Table [] true
          | ISym y :: _ => if y =? AUX then Table [] true else TErr E_USER
          | _ => TErr E_USER
          end
        else if x =? AUX then Table [] false
        else add (kwof x) x None (parse_keys formal (S n))
    | IInit x i :: formal => add (kwof x) x i (parse_keys formal (S n))
    | IKeyInit k x i :: formal => add k x i (parse_keys formal (S n))
    end.

  (** the search of eval.c:332 *)
  Fixpoint find_key (k : nat) (t : list entry) : option nat :=
    match t with
    | [] => None
    | en :: t => if ekey en =? k then Some 0 else option_map S (find_key k t)
    end.
  Fixpoint mark_supplied (i : nat) (t : list entry) : list entry :=
    match t, i with
    | [], _ => []
    | en :: t, O => mkEntry (ekey en) (evar en) None :: t
    | en :: t, S i => en :: mark_supplied i t
    end.

  (** eval.c:325-340 *)
  Inductive taken := Taken (t : list entry) (e : env) | TakErr (x : err).
  Fixpoint take_keys (args : list val) (t : list entry) (allow : bool) (e : env) : taken :=
    match args with
    | [] => Taken t e
    | VKey k :: [] => TakErr E_KEYPARAM
    | VKey k :: v :: args =>
        let allow := if k =? K_ALLOW then negb (is_nil v) else allow in
        match find_key k t with
        | Some i =>
            match nth_error t i with
            | Some (mkEntry _ x (Some _)) =>
                match vbind x v e with
                | inl e => take_keys args (mark_supplied i t) allow e
                | inr er => TakErr er
                end
            | _ => take_keys args t allow e
            end
        | None => if allow then take_keys args t allow e else TakErr (E_NOKEYPARAM k)
        end
    | _ :: _ => TakErr E_KEYPARAM
    end.
  (** eval.c:341-344 *)
  Fixpoint bind_defaults (t : list entry) (e : env) (s : St) : result :=
    match t with
    | [] => Bound e s
    | mkEntry _ _ None :: t => bind_defaults t e s
    | mkEntry _ x (Some i) :: t =>
        match init_value i e s with
        | Some (v, s) => match vbind x v e with inl e => bind_defaults t e s | inr er => Err er end
        | None => Err E_EVAL
        end
    end.
  Definition bindkeyparams (formal : list item) (args : list val) (e : env) (s : St) : result :=
    match parse_keys formal 0 with
    | TErr er => Err er
    | Table t allow => match take_keys args t allow e with
                       | TakErr er => Err er
                       | Taken t e => bind_defaults t e s
                       end
    end.

  (** eval.c:421-424: what follows &aux *)
  Fixpoint after_aux (formal : list item) : list item :=
    match formal with
    | [] => []
    | ISym x :: formal => if x =? AUX then formal else after_aux formal
    | _ :: formal => after_aux formal
    end.
  Definition bindkey (formal : list item) (args : list val) (e : env) (s : St) : result :=
    match bindkeyparams formal args e s with
    | Bound e s => bindaux (after_aux formal) e s
    | r => r
    end.

  (** eval.c:403-419; [args] are the arguments from number n on *)
  Definition bindrest (formal : list item) (args : list val) (e : env) (s : St) : result :=
    match formal with
    | [] => Err E_PARAMETER
    | ISym x :: formal =>
        match vbind x (vlist args) e with
        | inr er => Err er
        | inl e =>
            match formal with
            | [] => Bound e s
            | ISym y :: formal => if y =? KEY then bindkey formal args e s
                                  else if y =? AUX then bindaux formal e s else Err E_PARAMETER
            | _ :: _ => Err E_PARAMETER
            end
        end
    | _ :: _ => Err E_NOSYMBOL
    end.
  (** eval.c:386-402.  With &optional the count n may pass noarg; the remaining arguments are then none. *)
  Fixpoint bindopt (formal : list item) (args : list val) (e : env) (s : St) : result :=
    let next i x formal :=
      match args with
      | v :: args => match vbind x v e with inl e => bindopt formal args e s | inr er => Err er end
      | [] => match init_value i e s with
              | Some (v, s) => match vbind x v e with inl e => bindopt formal [] e s | inr er => Err er end
              | None => Err E_EVAL
              end
      end in
    match formal with
    | [] => match args with [] => Bound e s | _ => Err E_MISMATCHARG end
    | ISym x :: formal =>
        if x =? REST then bindrest formal args e s
        else if x =? KEY then bindkey formal args e s
        else if x =? AUX then bindaux formal e s
        else next None x formal
    | IInit x i :: formal => next i x formal
    | IKeyInit _ _ _ :: _ => Err E_NOSYMBOL
    end.
  (** eval.c:375-385.  &optional, &rest, &key and &aux after the required parameters. *)
  Fixpoint bindreq (formal : list item) (args : list val) (e : env) (s : St) : result :=
    match formal with
    | [] => match args with [] => Bound e s | _ => Err E_MISMATCHARG end
    | ISym x :: formal =>
        if x =? OPTIONAL then bindopt formal args e s
        else if x =? REST then bindrest formal args e s
        else if x =? KEY then bindkey formal args e s
        else if x =? AUX then bindaux formal e s
        else match args with
             | [] => Err E_MISMATCHARG
             | v :: args => match vbind x v e with inl e => bindreq formal args e s | inr er => Err er end
             end
    | _ :: _ => match args with [] => Err E_MISMATCHARG | _ => Err E_NOSYMBOL end
    end.
  Definition funlambda (formal : list item) (args : list val) (s : St) : result := bindreq formal args [] s.

  (** ** The compiled route *)
  Inductive parsed := Parsed (bits : Z) (results : list val) | ParErr (x : err) | ParUndef.

  (** 1<<i in type int: undefined from 31 on *)
  Definition bit (i : nat) : option Z := if i <? 31 then Some (2 ^ Z.of_nat i)%Z else None.
  Fixpoint set_nth (i : nat) (v : val) (l : list val) : list val :=
    match l, i with [], _ => [] | _ :: l, O => v :: l | a :: l, S i => a :: set_nth i v l end.
  Fixpoint find_in (k : nat) (ks : list nat) : option nat :=
    match ks with [] => None | a :: ks => if a =? k then Some 0 else option_map S (find_in k ks) end.
  (** eval.c:252-262 *)
  Fixpoint parse_loop (keyvec : list nat) (args : list val) (allow : bool) (bits : Z) (results : list val) : parsed :=
    match args with
    | [] => Parsed bits results
    | VKey k :: v :: args =>
        let allow := if k =? K_ALLOW then negb (is_nil v) else allow in
        match find_in k keyvec with
        | Some i => match bit i with
                    | None => ParUndef
                    | Some b => if (Z.land bits b =? 0)%Z
                                then parse_loop keyvec args allow (Z.lor bits b) (set_nth i v results)
                                else parse_loop keyvec args allow bits results
                    end
        | None => if allow then parse_loop keyvec args allow bits results else ParErr (E_NOKEYPARAM k)
        end
    | _ :: _ => ParErr E_KEYPARAM
    end.
  (** eval.c:244-251: without arguments the results are left alone, here [local] *)
  Definition parsekeyparams (keyvec : list nat) (args local : list val) (allow : bool) : parsed :=
    match args with
    | [] => Parsed 0 local
    | _ => if Nat.odd (length args) then ParErr E_KEYPARAM
           else parse_loop keyvec args allow 0 (repeat VNil (length keyvec))
    end.

  (** comp.l:1056-1073: for each key in turn, unless its bit is set evaluate the default and store it; the variable
      is visible from here on. *)
  Inductive cresult := CBound (e : env) (s : St) | CErr (x : err) | CUndef.
  Fixpoint compiled_defaults (i : nat) (ks : list (nat * option F)) (bits : Z) (results : list val) (e : env) (s : St)
      : cresult :=
    match ks with
    | [] => CBound e s
    | (x, ini) :: ks =>
        match bit i with
        | None => CUndef
        | Some b =>
            if (Z.land bits b =? 0)%Z then
              match init_value ini e s with
              | Some (v, s) => compiled_defaults (S i) ks bits results ((x, v) :: e) s
              | None => CErr E_EVAL
              end
            else compiled_defaults (S i) ks bits results ((x, nth i results VNil) :: e) s
        end
    end.
  Definition compiled_keys (ks : list (nat * nat * option F)) (allow : bool) (args local : list val) (e : env) (s : St)
      : cresult :=
    match parsekeyparams (map (fun p => fst (fst p)) ks) args local allow with
    | ParErr er => CErr er
    | ParUndef => CUndef
    | Parsed bits results => compiled_defaults 0 (map (fun p => (snd (fst p), snd p)) ks) bits results e s
    end.
End Binding.
Arguments ISym {F}. Arguments IInit {F}. Arguments IKeyInit {F}.
