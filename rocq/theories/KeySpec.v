(** What binding parameters means, without frames or tables: each parameter has a source, an argument or its default
    form, and the parameters get their values one after the other. *)
From Verif Require Import KeyModel.

Section Spec.
  Context {F St : Type}.
  Variable ev : F -> (nat -> option val) -> St -> option (val * St).
  Variable kwof : nat -> nat.

  (** A lambda list: (req... &optional opt... &rest rst &key keys... &allow-other-keys &aux aux...) *)
  Record lambda := mkLambda {
    req : list nat; opt : list (@item F); rst : option nat;
    keys : option (list (@item F)); aokeys : bool; aux : list (@item F) }.
  Definition ivar (p : @item F) : nat := match p with ISym x | IInit x _ | IKeyInit _ x _ => x end.
  Definition iinit (p : @item F) : option F := match p with ISym _ => None | IInit _ i | IKeyInit _ _ i => i end.
  Definition ikey (p : @item F) : nat := match p with ISym x | IInit x _ => kwof x | IKeyInit k _ _ => k end.
  Definition simple (p : @item F) : Prop := match p with IKeyInit _ _ _ => False | _ => True end.

  (** the lambda list as written *)
  Definition write_aux (L : lambda) : list item := match aux L with [] => [] | a => ISym AUX :: a end.
  Definition write_keys (L : lambda) : list item :=
    match keys L with
    | Some ks => ISym KEY :: ks ++ (if aokeys L then [ISym ALLOW] else [])
    | None => []
    end.
  Definition write (L : lambda) : list item :=
    map ISym (req L) ++ (match opt L with [] => [] | o => ISym OPTIONAL :: o end) ++
    (match rst L with Some x => [ISym REST; ISym x] | None => [] end) ++ write_keys L ++ write_aux L.

  Definition opt_list {A} (o : option (list A)) : list A := match o with Some l => l | None => [] end.
  Definition opt_one {A} (o : option A) : list A := match o with Some a => [a] | None => [] end.
  Definition variables (L : lambda) : list nat :=
    req L ++ map ivar (opt L) ++ opt_one (rst L) ++ map ivar (opt_list (keys L)) ++ map ivar (aux L).
  (** distinct variables, none a lambda-list keyword; distinct keywords, fewer than 128 *)
  Definition well_formed (constant : nat -> bool) (L : lambda) : Prop :=
    NoDup (variables L) /\ (forall x, In x (variables L) -> 4 < x /\ constant x = false) /\
    Forall simple (opt L) /\ Forall simple (aux L) /\
    NoDup (map ikey (opt_list (keys L))) /\ length (opt_list (keys L)) < KEYWORDPARAMETERLIMIT.

  Inductive source := Given (v : val) | Default (i : option F).
  Definition upd (r : nat -> option val) (x : nat) (v : val) : nat -> option val := fun y => if y =? x then Some v else r y.
  (** one parameter after the other, each default seeing the parameters before it *)
  Fixpoint run (l : list (nat * source)) (r : nat -> option val) (s : St) : option ((nat -> option val) * St) :=
    match l with
    | [] => Some (r, s)
    | (x, Given v) :: l => run l (upd r x v) s
    | (x, Default None) :: l => run l (upd r x VNil) s
    | (x, Default (Some f)) :: l => match ev f r s with Some (v, s) => run l (upd r x v) s | None => None end
    end.

  (** the value of the leftmost occurrence of the keyword *)
  Fixpoint first_value (k : nat) (args : list val) : option val :=
    match args with
    | VKey j :: v :: args => if j =? k then Some v else first_value k args
    | _ :: _ :: args => first_value k args
    | _ => None
    end.
  Fixpoint opt_sources (l : list (@item F)) (args : list val) : list (nat * source) :=
    match l, args with
    | [], _ => []
    | p :: l, v :: args => (ivar p, Given v) :: opt_sources l args
    | p :: l, [] => (ivar p, Default (iinit p)) :: opt_sources l []
    end.
  Definition key_source (more : list val) (p : @item F) : nat * source :=
    (ivar p, match first_value (ikey p) more with Some v => Given v | None => Default (iinit p) end).

  Definition after_opt (L : lambda) (args : list val) : list val := skipn (length (req L) + length (opt L)) args.
  Definition before_keys (L : lambda) (args : list val) : list (nat * source) :=
    combine (req L) (map Given args) ++ opt_sources (opt L) (skipn (length (req L)) args) ++
    (match rst L with Some x => [(x, Given (vlist (after_opt L args)))] | None => [] end).
  Definition aux_sources (L : lambda) : list (nat * source) := map (fun p => (ivar p, Default (iinit p))) (aux L).
  (** left to right *)
  Definition sources (L : lambda) (args : list val) : list (nat * source) :=
    before_keys L args ++ map (key_source (after_opt L args)) (opt_list (keys L)) ++ aux_sources L.
  (** as the interpreter does it: the keyword parameters with an argument before those without *)
  Definition given (p : nat * source) : bool := match snd p with Given _ => true | Default _ => false end.
  Definition sources_coded (L : lambda) (args : list val) : list (nat * source) :=
    let ks := map (key_source (after_opt L args)) (opt_list (keys L)) in
    before_keys L args ++ filter given ks ++ filter (fun p => negb (given p)) ks ++ aux_sources L.

  (** ** Which argument lists are refused *)
  Definition known (L : lambda) (k : nat) : bool := existsb (fun p => ikey p =? k) (opt_list (keys L)).
  (** keywords in the even places, each with a value *)
  Fixpoint paired (args : list val) : bool :=
    match args with
    | [] => true
    | VKey _ :: _ :: args => paired args
    | _ => false
    end.
  Fixpoint keywords (args : list val) : list nat :=
    match args with VKey k :: _ :: args => k :: keywords args | _ => [] end.
  (** The interpreter's permission for the keywords at a place: the last :allow-other-keys up to there decides. *)
  Fixpoint first_bad (L : lambda) (allow : bool) (args : list val) : option err :=
    match args with
    | [] => None
    | VKey k :: v :: args =>
        let allow := if k =? K_ALLOW then negb (is_nil v) else allow in
        if known L k || allow then first_bad L allow args else Some (E_NOKEYPARAM k)
    | _ => Some E_KEYPARAM
    end.
  Definition refusal_coded (L : lambda) (args : list val) : option err :=
    if length args <? length (req L) then Some E_MISMATCHARG
    else match keys L with
         | Some _ => first_bad L (aokeys L) (after_opt L args)
         | None => match rst L, aux L, after_opt L args with       (* with &aux too many arguments are not noticed *)
                   | None, [], _ :: _ => Some E_MISMATCHARG
                   | _, _, _ => None
                   end
         end.
  (** The standard rule: too few or too many arguments, unpaired keywords, or an unknown keyword (the leftmost is
      reported) unless the lambda list or the leftmost :allow-other-keys argument allows them. *)
  Definition allowed (L : lambda) (more : list val) : bool :=
    aokeys L || match first_value K_ALLOW more with Some v => negb (is_nil v) | None => false end.
  Definition accepted (L : lambda) (args : list val) : Prop :=
    length (req L) <= length args /\
    match keys L with
    | Some _ => paired (after_opt L args) = true /\
                (allowed L (after_opt L args) = true \/
                 forall k, In k (keywords (after_opt L args)) -> known L k = true \/ k = K_ALLOW)
    | None => rst L <> None \/ length args <= length (req L) + length (opt L)
    end.

  (** a form that does not look at the variables X *)
  Definition ignores (X : list nat) (f : F) : Prop :=
    forall r r' s, (forall x, ~ In x X -> r x = r' x) -> ev f r s = ev f r' s.
  Fixpoint no_look_ahead (ks : list (@item F)) : Prop :=
    match ks with
    | [] => True
    | p :: ks => match iinit p with Some f => ignores (map ivar ks) f | None => True end /\ no_look_ahead ks
    end.
End Spec.
Arguments lambda : clear implicits.
Arguments source : clear implicits.
