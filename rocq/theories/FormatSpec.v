(** Specification for C97: a control string as the writing of a list of pieces, and the text that each piece stands for. *)
From Verif Require Import Word BigModel BigSpec IntTextModel FormatModel.
Open Scope Z_scope.

(** a character, or ~ with numbers separated by commas, perhaps a comma at the end, perhaps V, and a letter *)
Inductive piece := Lit (c : Z) | Dir (ps : list (list Z)) (comma : bool) (v : option Z) (letter : Z).
Definition is_digit (c : Z) : Prop := 48 <= c <= 57.
Definition is_v (c : Z) : Prop := c = 86 \/ c = 118.
Fixpoint decimal (t : list Z) (v : Z) : Z := match t with [] => v | c :: r => decimal r (10 * v + (c - 48)) end.
Fixpoint join (ps : list (list Z)) : list Z :=
  match ps with [] => [] | [p] => p | p :: r => p ++ 44 :: join r end.
Definition text (p : piece) : list Z :=
  match p with
  | Lit c => [c]
  | Dir ps comma v letter => 126 :: join ps ++ (if comma then [44] else []) ++ match v with Some x => [x] | None => [] end ++ [letter]
  end.
Fixpoint texts (l : list piece) : list Z := match l with [] => [] | p :: r => text p ++ texts r end.
(** numbers of at most 31 bits, ten parameters at most; the writing can be told apart from what follows *)
Definition well (p : piece) : Prop :=
  match p with
  | Lit c => c <> 126
  | Dir ps comma v letter =>
      Forall (fun d => d <> [] /\ Forall is_digit d /\ decimal d 0 < 2 ^ 31) ps /\
      Z.of_nat (length ps) + (match v with Some _ => 1 | None => 0 end) <= 10 /\
      (comma = true -> ps <> []) /\
      match v with
      | Some x => is_v x
      | None => ~ is_v letter /\ ~ is_digit letter /\ (letter = 44 -> ps = [] \/ comma = true)
      end
  end.

(** the printer's output when no :prin1 method calls format *)
Inductive plain : list act -> list Z -> Prop :=
  | plain_nil : plain [] []
  | plain_put : forall t r u, plain r u -> plain (Put t :: r) (t ++ u).
(** the text t, followed by spaces up to the width w *)
Definition left_field (w : Z) (t out : list Z) : Prop := out = t ++ repeat 32 (Z.to_nat (w - Z.of_nat (length t))).
(** sign and digits with zeros between them up to z characters, after spaces up to the width w *)
Definition number_field (w z : Z) (sign digits out : list Z) : Prop :=
  let body := sign ++ repeat 48 (Z.to_nat (z - Z.of_nat (length (sign ++ digits)))) ++ digits in
  out = repeat 32 (Z.to_nat (w - Z.of_nat (length body))) ++ body.
Definition minus (o : intobj) : list Z := if value o <? 0 then [45] else [].
(** without the zeros at the end, but with one digit after the point *)
Definition trimmed (t out : list Z) : Prop :=
  exists k, t = out ++ repeat 48 k /\ (k = O \/ exists u c d, out = u ++ [c; d] /\ d <> 46) /\
    forall u, out = u ++ [48] -> (length u < 2)%nat \/ exists w, u = w ++ [46].

(** the text of a directive with the parameters ps, the arguments it finds and the arguments it leaves *)
Inductive meaning (down : bool) (ps : list Z) : Z -> list arg -> list Z -> list arg -> Prop :=
  | m_a : forall a r t out, plain (princ a) t -> left_field (nth 0 ps 0) t out -> meaning down ps 65 (a :: r) out r
  | m_s : forall a r t out, plain (prin1 a) t -> left_field (nth 0 ps 0) t out -> meaning down ps 83 (a :: r) out r
  | m_int : forall c base a r o t out, c = 68 /\ base = 10 \/ c = 88 /\ base = 16 \/ c = 79 /\ base = 8 ->
      int a = Some o -> canonical o -> print_integer base down o = Some (minus o ++ t) ->
      (** not for negative bignums with leading zeros *)
      (match o with Imm _ => True | Big _ => 0 <= value o \/ nth 1 ps 1 <= Z.of_nat (length t) end) ->
      number_field (nth 0 ps 0) (nth 1 ps 1) (minus o) t out -> meaning down ps c (a :: r) out r
  | m_num : forall c a r t, c = 68 \/ c = 88 \/ c = 79 -> int a = None -> num_text a = Some t -> meaning down ps c (a :: r) t r
  | m_char : forall a r o, int a = Some o -> canonical o -> 0 <= value o < 256 -> meaning down ps 67 (a :: r) [value o] r
  | m_fixed : forall a r x, flt a = Some x -> (length (fixed x (nth 0 ps 0%Z) (nth 1 ps 1%Z)) < 256)%nat ->
      meaning down ps 70 (a :: r) (fixed x (nth 0 ps 0) (nth 1 ps 1)) r
  | m_expon : forall a r x, flt a = Some x -> (length (expon x (nth 0 ps 0%Z) (nth 1 ps 1%Z)) < 256)%nat ->
      meaning down ps 69 (a :: r) (expon x (nth 0 ps 0) (nth 1 ps 1)) r
  | m_zero : forall a r x, flt a = Some x -> zero x = true -> meaning down ps 71 (a :: r) [48; 46; 48] r
  | m_large : forall a r x, flt a = Some x -> zero x = false -> extreme x = true -> (length (expon x (nth 0 ps 0%Z) (nth 1 ps 1%Z)) < 256)%nat ->
      meaning down ps 71 (a :: r) (expon x (nth 0 ps 0) (nth 1 ps 1)) r
  | m_usual : forall a r x out, flt a = Some x -> zero x = false -> extreme x = false -> (length (fixed x (nth 0 ps 0%Z) (nth 1 ps 1%Z)) < 256)%nat ->
      trimmed (fixed x (nth 0 ps 0) (nth 1 ps 1)) out -> meaning down ps 71 (a :: r) out r
  | m_newline : forall c args, c = 37 \/ c = 38 -> ps = [] -> meaning down ps c args [10] args
  | m_tilde : forall args, meaning down ps 126 args [126] args
  | m_tab : forall args, meaning down ps 84 args [9] args
  | m_other : forall c args, ~ In c [65; 83; 68; 88; 79; 67; 70; 69; 71; 37; 38; 126; 84] -> meaning down ps c args [] args.

(** capital and small letters mean the same *)
Definition capital (c : Z) : Z := if (97 <=? c) && (c <=? 122) then c - 32 else c.
Definition numbers (ps : list (list Z)) : list Z := map (fun d => decimal d 0) ps.
Inductive renders (down : bool) : list piece -> list arg -> list Z -> list arg -> Prop :=
  | r_nil : forall args, renders down [] args [] args
  | r_lit : forall c l args out rest, renders down l args out rest -> renders down (Lit c :: l) args (c :: out) rest
  | r_dir : forall ps comma letter l args t args1 out rest,
      meaning down (numbers ps) (capital letter) args t args1 -> renders down l args1 out rest ->
      renders down (Dir ps comma None letter :: l) args (t ++ out) rest
  | r_v : forall ps comma x letter l a o args t args1 out rest,
      int a = Some o -> canonical o -> - 2 ^ 31 <= value o < 2 ^ 31 ->
      meaning down (numbers ps ++ [value o]) (capital letter) args t args1 -> renders down l args1 out rest ->
      renders down (Dir ps comma (Some x) letter :: l) (a :: args) (t ++ out) rest.

(** the letters that take an argument *)
Definition takes (letter : Z) : Prop := In (capital letter) [65; 83; 68; 88; 79; 67; 70; 69; 71].
(** the beginning of a directive without its letter *)
Definition beginning (s : list Z) : Prop :=
  exists ps comma, s = 126 :: join ps ++ (if comma : bool then [44] else []) /\ (comma = true -> ps <> []) /\
    Z.of_nat (length ps) <= 10 /\ Forall (fun d => d <> [] /\ Forall is_digit d /\ decimal d 0 < 2 ^ 31) ps.
(** ... and without what V needs after it *)
Definition beginning_v (s : list Z) : Prop := exists b x, beginning b /\ is_v x /\ s = b ++ [x].
(** a directive with more than ten parameters or a parameter of more than 31 bits *)
Definition oversized (s : list Z) : Prop :=
  exists ps (comma : bool) rest, s = 126 :: join ps ++ (if comma then [44] else []) ++ rest /\ Forall (fun d => d <> [] /\ Forall is_digit d) ps /\
    ((10 < length ps)%nat \/ (exists d, In d ps /\ 2 ^ 31 <= decimal d 0) \/ (length ps = 10%nat /\ exists x r, is_v x /\ rest = x :: r)).
