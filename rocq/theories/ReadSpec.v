(** Vocabulary for the statements about printing and reading back (C39-C41): which names, numbers and data
    are in the region where the round trip is claimed. *)
From Verif Require Import Word BigModel BigSpec IntTextModel ReadModel.

Definition byte (c : Z) : Prop := 0 <= c < 256.

(** ** Names that look like a number *)

(** A digit of the base, as an upper-case character. *)
Definition digit_of (base c : Z) : Prop :=
  exists d, 0 <= d < base /\ c = (if d <? 10 then 48 + d else 65 + d - 10).

Definition sign_text (s : list Z) : Prop := s = [] \/ s = [43] \/ s = [45].

(** Nothing, or one of the letters E D F L, a sign and digits. *)
Definition expo_text (base : Z) (t : list Z) : Prop :=
  t = [] \/
  exists m s ds, t = m :: s ++ ds /\ In m [69; 68; 70; 76; 101; 100; 102; 108] /\ sign_text s /\ Forall (digit_of base) ds.

(** digits [. digits] [exponent], digits / digits, or . [digits] [exponent] after a sign or not, but not
    the single dot. *)
Definition number_like (base : Z) (name : list Z) : Prop :=
  exists s ds t,
    name = s ++ ds ++ t /\ sign_text s /\ Forall (digit_of base) ds /\ name <> [46] /\
    (   (ds <> [] /\ expo_text base t)
     \/ (exists ds' e, t = 46 :: ds' ++ e /\ Forall (digit_of base) ds' /\ expo_text base e)
     \/ (ds <> [] /\ exists ds', t = 47 :: ds' /\ ds' <> [] /\ Forall (digit_of base) ds')).

(** ** Names and data of the round trip *)

(** Not a backslash and not a control character other than BS, TAB, LF, FF and CR. *)
Definition name_char (c : Z) : Prop :=
  byte c /\ c <> 92 /\ (c < 32 -> In c [8; 9; 10; 12; 13]).

Definition name_ok (base : Z) (kw : bool) (name : list Z) : Prop :=
  Forall name_char name /\
  (length name + (if kw then 1 else 0) < 1024)%nat /\
  ((length name <= 383)%nat \/ ~ In 124 name) /\
  (kw = false -> (Forall (digit_of base) name \/ ~ number_like base name) /\
                 (forall c r, name = c :: r -> c < 128)).

(** Inside lists the symbol named by a single dot is left out, and so are names beginning with a dot and
    a byte from 128. *)
Definition element_name_ok (base : Z) (kw : bool) (name : list Z) : Prop :=
  name_ok base kw name /\
  (kw = false -> name <> [46] /\ (forall c r, name = 46 :: c :: r -> c < 128)).

(** An integer whose text is shorter than the longest token. *)
Definition int_ok (base : Z) (down : bool) (o : intobj) : Prop :=
  canonical o /\ forall txt, print_integer base down o = Some txt -> (length txt < 1024)%nat.

Fixpoint datum_ok (base : Z) (down : bool) (x : datum) : Prop :=
  match x with
  | DInt o => int_ok base down o
  | DFlt _ => False
  | DSym kw name => element_name_ok base kw name
  | DStr s => Forall byte s
  | DVec l => (fix all (l : list datum) : Prop :=
                 match l with [] => True | e :: r => datum_ok base down e /\ all r end) l
  | DCons a d => datum_ok base down a /\ datum_ok base down d
  end.

(** Nesting: a list counts two levels for its elements (because of 'x), a vector one. *)
Fixpoint depth (x : datum) : Z :=
  match x with
  | DVec l => (fix deepest (l : list datum) : Z :=
                 match l with [] => 1 | e :: r => Z.max (1 + depth e) (deepest r) end) l
  | DCons a d => Z.max (2 + depth a) (match d with DCons _ _ => depth d | _ => 1 + depth d end)
  | _ => 1
  end.

(** Number of elements of the longest list in a datum. *)
Fixpoint conses (x : datum) : Z :=
  match x with DCons _ d => 1 + conses d | _ => 0 end.
Fixpoint longest (x : datum) : Z :=
  match x with
  | DVec l => (fix longest_of (l : list datum) : Z :=
                 match l with [] => 0 | e :: r => Z.max (longest e) (longest_of r) end) l
  | DCons a d => Z.max (longest a) (Z.max (1 + conses d) (longest d))
  | _ => 0
  end.

(** What may follow a token: the end of the text, white space or a terminating macro character. *)
Definition delimiter (rest : list Z) : Prop :=
  match rest with
  | [] => True
  | c :: _ => In c [9; 10; 12; 13; 32; 34; 39; 40; 41; 44; 59; 96]
  end.
