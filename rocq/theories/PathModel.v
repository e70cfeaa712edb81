(** Model of pathnames: lisp/l/string.l:164-322.

    Strings are those of [StrModel]; an unbound slot or NIL is [None].  The device, version and defaults other than
    pathnames and strings are left out where they play no part.  [position] and [subseq] are called with indices inside
    the string only, so they are modelled with natural numbers.  Strings longer than the sequence limit (10^8,
    lisp/c/sequence.c:21) and stack overflow are left out. *)
From Verif Require Import Word StrModel.

Definition SLASH : Z := 47.
Definition COLON : Z := 58.
Definition DOT : Z := 46.
Definition TILDE : Z := 126.

(** string.l:164-165.  A directory is a list of names, with :root in front if it is absolute. *)
Inductive comp : Type := Root | Name (s : str).
Record path : Type := mkPath {
  host : option str; device : option str; directory : list comp;
  name : option str; type : option str; version : option str }.

Definition blank : path := mkPath None None [] None None None.

(** sequence.c:520-557 [position] on a string from [start] to the end *)
Fixpoint index_of (c : Z) (s : str) : option nat :=
  match s with
  | [] => None
  | x :: r => if x =? c then Some O else option_map S (index_of c r)
  end.
Definition position (c : Z) (s : str) (start : nat) : option nat :=
  option_map (fun n => (start + n)%nat) (index_of c (skipn start s)).

(** sequence.c:117-170 *)
Definition sub (s : str) (b e : nat) : str := firstn (e - b) (skipn b s).
Definition sub_from (s : str) (b : nat) : str := skipn b s.

(** string.l:170-179 [explode-directory-names] and the loop 203-206, which push the nonempty pieces in front of slashes;
    [None] only if [fuel] is too small. *)
Fixpoint dir_loop (fuel : nat) (pn : str) (slash : nat) (dirs : list comp) : option (nat * list comp) :=
  match fuel with
  | O => None
  | S f =>
      match position SLASH pn slash with
      | None => Some (slash, dirs)
      | Some s =>
          let dirstr := sub pn slash s in
          dir_loop f pn (s + 1) (if (0 <? length dirstr)%nat then Name dirstr :: dirs else dirs)
      end
  end.

Definition explode_directory_names (dirnames : str) : option (list comp) :=
  match dir_loop (length dirnames + 1) dirnames 0 [] with
  | None => None
  | Some (slash, dirs) =>
      let dirstr := sub_from dirnames slash in
      Some (if (0 <? length dirstr)%nat then Name dirstr :: dirs else dirs)
  end.

(** string.l:218-219 *)
Fixpoint period_loop (fuel : nat) (pn : str) (period : nat) : option nat :=
  match fuel with
  | O => None
  | S f => match position DOT pn period with None => Some period | Some s => period_loop f pn (s + 1) end
  end.

Definition str_eqb (a b : str) : bool := if list_eq_dec Z.eq_dec a b then true else false.
Definition null_string (s : str) : bool := str_eqb s [].

(** string.l:182-223 [:parse-namestring] sent to the pathname [p].  [home] is the value of HOME. *)
Definition parse_namestring (home : str) (p : path) (pn : str) : result path :=
  if (length pn =? 0)%nat then Val (mkPath (Some []) (Some []) [] (name p) (type p) (version p))
  else
    let hc := match position COLON pn 0 with
              | Some s => (Some (sub pn 0 s), (s + 1)%nat)
              | None => (host p, O) end in
    let slash := snd hc in
    (* elt of 196 *)
    if (length pn <=? slash)%nat then Error
    else
      let c := nth slash pn 0 in
      let start :=
        if c =? SLASH then Some ([Root], (slash + 1)%nat)
        else if c =? TILDE then
          match explode_directory_names home with
          | Some d => Some (d ++ [Root], (slash + 1)%nat)
          | None => None
          end
        else Some ([], slash) in
      match start with
      | None => Undef
      | Some (dirs, slash) =>
        match dir_loop (length pn + 1) pn slash dirs with
        | None => Undef
        | Some (slash, dirs) =>
          let dirs := rev dirs in
          let namestr := sub_from pn slash in
          if str_eqb namestr [DOT; DOT] then Val (mkPath (fst hc) (device p) dirs (Some namestr) None (version p))
          else
            match position DOT pn slash with
            | None =>
                let nm := if (slash <? length pn)%nat then Some (sub_from pn slash) else name p in
                Val (mkPath (fst hc) (device p) dirs nm (type p) (version p))
            | Some period =>
                match period_loop (length pn + 1) pn (period + 1) with
                | None => Undef
                | Some period =>
                    let nm := sub pn slash (period - 1) in
                    Val (mkPath (fst hc) (device p) dirs (if null_string nm then None else Some nm)
                           (Some (sub_from pn period)) (version p))
                end
            end
        end
      end.

(** string.l:273-278 on a string: a new pathname *)
Definition pathname (home : str) (pn : str) : result path := parse_namestring home blank pn.

(** string.l:224-229 [:directory-string].  Without arguments [concatenate] gives NIL; :root is no sequence. *)
Fixpoint dir_text (dir : list comp) : result str :=
  match dir with
  | [] => Val []
  | Root :: _ => Error
  | Name d :: r => bind (dir_text r) (fun t => Val (d ++ [SLASH] ++ t))
  end.
Definition directory_string (p : path) : result (option str) :=
  match directory p with
  | [] => Val None
  | Root :: r => bind (dir_text r) (fun t => Val (Some ([SLASH] ++ t)))
  | d => bind (dir_text d) (fun t => Val (Some t))
  end.

Definition or_empty (o : option str) : str := match o with Some s => s | None => [] end.

(** string.l:230-235 *)
Definition namestring (p : path) : result str :=
  bind (directory_string p) (fun fdir =>
  let ftype := match type p with Some t => Some ([DOT] ++ t) | None => None end in
  match name p with
  | Some n => Val (or_empty (host p) ++ or_empty (device p) ++ or_empty fdir ++ n ++ or_empty ftype)
  | None => Val (or_empty (host p) ++ or_empty (device p) ++ or_empty fdir ++ or_empty ftype)
  end).

Definition or_else {A} (a b : option A) : option A := match a with Some x => Some x | None => b end.

(** string.l:249-256 [:merge], and 307-313 merge-pathnames, which copies a pathname first *)
Definition merge (p d : path) : path :=
  mkPath (or_else (host p) (host d)) (or_else (device p) (device d))
    (match directory p with [] => directory d | _ => directory p end)
    (or_else (name p) (name d)) (or_else (type p) (type d)) (or_else (version p) (version d)).

(** An argument of merge-pathnames: a pathname or a string; 273-278 on NIL is a blank pathname *)
Inductive designator : Type := Path (p : path) | Text (s : str) | Nil.
Definition to_path (home : str) (x : designator) : result path :=
  match x with Path p => Val p | Text s => pathname home s | Nil => Val blank end.
Definition merge_pathnames (home : str) (x d : designator) : result path :=
  bind (to_path home x) (fun p => bind (to_path home d) (fun q => Val (merge p q))).

(** string.l:257-258 [:add-directory] with strings *)
Definition add_directory (p : path) (ds : list str) : path :=
  mkPath (host p) (device p) (directory p ++ map Name ds) (name p) (type p) (version p).

(** string.l:315-317; [namestring] 279-283 of NIL is the name of the symbol *)
Fixpoint concat_names (xs : list (result str)) : result str :=
  match xs with
  | [] => Val []
  | x :: r => bind x (fun s => bind (concat_names r) (fun t => Val (s ++ t)))
  end.
Definition namestring_of (x : designator) : result str :=
  match x with Path p => namestring p | Text s => Val s | Nil => Val [78; 73; 76] end.
Definition concatenate_pathnames (home : str) (xs : list designator) : result path :=
  match xs with
  | [] => Val blank
  | _ => bind (concat_names (map namestring_of xs)) (pathname home)
  end.
