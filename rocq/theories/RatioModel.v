(** Model of ratios: lisp/c/arith.c:416-530 (ratio_plus ... return_ratio), the ratio paths of NUMEQUAL, NUMNEQUAL
    (36-102), PLUS, MINUS, TIMES and QUOTIENT (533-870), gcd and readratio (lisp/c/reader.c:840-861), makeratio
    (lisp/c/makes.c:555-562) and printratio (lisp/c/printer.c:219-226).

    Numerator and denominator of a ratio are fixnums made from C ints.  Arguments are fixnums and ratios; a fixnum
    accumulator that leaves the fixnum range goes over to bignums, outcome [Leave] (BigModel).  Flonums and garbage
    collection are left out.  Division by zero and negation of the smallest int are [Undef]. *)
From Verif Require Import Word BigModel IntTextModel.

Inductive num : Type :=
| Fix (z : Z)            (* a fixnum *)
| Rat (n d : Z).         (* numerator and denominator *)

Inductive result (A : Type) : Type := Val (a : A) | Error | Leave | Undef.
Arguments Val {A} a.  Arguments Error {A}.  Arguments Leave {A}.  Arguments Undef {A}.

Definition bind {A B} (r : result A) (k : A -> result B) : result B :=
  match r with Val a => k a | Error => Error | Leave => Leave | Undef => Undef end.

(** reader.c:846 *)
Fixpoint gcd_loop (fuel : nat) (u v : Z) : Z :=
  match fuel with
  | O => u
  | S f => if v =? 0 then u else gcd_loop f v (Z.rem u v)
  end.

(** reader.c:840-847; the parameters are ints.  100 rounds are enough for ints ([gcd_loop_ok]). *)
Definition gcd (u v : Z) : result Z :=
  let u := wrap32 u in
  let v := wrap32 v in
  if (u =? - 2 ^ 31) || (v =? - 2 ^ 31) then Undef
  else
    let u := if u <? 0 then - u else u in
    let v := if v <? 0 then - v else v in
    Val (if u <? v then gcd_loop 100 v u else gcd_loop 100 u v).

(** C integer division of longs *)
Definition quot (a b : Z) : result Z := if b =? 0 then Undef else Val (Z.quot a b).

(** makes.c:555-562; both parameters are ints *)
Definition makeratio (n d : Z) : num := Rat (wrap32 n) (wrap32 d).

(** arith.c:416-438 *)
Definition ratio_plus (x_num x_den y_num y_den : Z) : result num :=
  bind (gcd x_den y_den) (fun d1 =>
  if d1 =? 1 then
    Val (makeratio (wrap64 (wrap64 (x_num * y_den) + wrap64 (x_den * y_num))) (wrap64 (x_den * y_den)))
  else
    bind (quot y_den d1) (fun yd => bind (quot x_den d1) (fun xd =>
    let t := wrap64 (wrap64 (x_num * yd) + wrap64 (y_num * xd)) in
    bind (gcd t d1) (fun d2 =>
    bind (quot t d2) (fun z_num => bind (quot y_den d2) (fun yd2 =>
    Val (makeratio z_num (wrap64 (xd * yd2))))))))).

(** arith.c:440-460 *)
Definition ratio_minus (x_num x_den y_num y_den : Z) : result num :=
  bind (gcd x_den y_den) (fun d1 =>
  if d1 =? 1 then
    Val (makeratio (wrap64 (wrap64 (x_num * y_den) - wrap64 (x_den * y_num))) (wrap64 (x_den * y_den)))
  else
    bind (quot y_den d1) (fun yd => bind (quot x_den d1) (fun xd =>
    let t := wrap64 (wrap64 (x_num * yd) - wrap64 (y_num * xd)) in
    bind (gcd t d1) (fun d2 =>
    bind (quot t d2) (fun z_num => bind (quot y_den d2) (fun yd2 =>
    Val (makeratio z_num (wrap64 (xd * yd2))))))))).

(** arith.c:462-478 *)
Definition ratio_times (x_num x_den y_num y_den : Z) : result num :=
  bind (gcd x_num y_den) (fun d1 => bind (gcd x_den y_num) (fun d2 =>
  bind (quot x_num d1) (fun xn => bind (quot y_num d2) (fun yn =>
  bind (quot x_den d2) (fun xd => bind (quot y_den d1) (fun yd =>
  Val (makeratio (wrap64 (xn * yn)) (wrap64 (xd * yd))))))))).

(** arith.c:480-500; abs takes an int *)
Definition ratio_divide (x_num x_den y_num y_den : Z) : result num :=
  bind (gcd x_num y_num) (fun d1 => bind (gcd x_den y_den) (fun d2 =>
  let sign := if 0 <=? y_num then 1 else -1 in
  bind (quot x_num d1) (fun xn => bind (quot y_den d2) (fun yd =>
  bind (quot x_den d2) (fun xd => bind (quot y_num d1) (fun yn =>
  let p := wrap32 (wrap64 (xd * yn)) in
  if p =? - 2 ^ 31 then Undef
  else Val (makeratio (wrap64 (wrap64 (xn * yd) * sign)) (Z.abs p)))))))).

(** arith.c:526-530 *)
Definition return_ratio (r : num) : num :=
  match r with
  | Rat n d => if n =? 0 then Fix 0 else if d =? 1 then Fix n else r
  | Fix z => r
  end.

(** "if (isint(a)) a=makeratio(intval(a),1)", arith.c:556, 649, 748, 836 *)
Definition as_ratio (a : num) : Z * Z :=
  match a with
  | Fix z => (wrap32 z, 1)
  | Rat n d => (n, d)
  end.

Definition op2 (f : Z -> Z -> Z -> Z -> result num) (rs a : num) : result num :=
  let x := as_ratio rs in
  let y := as_ratio a in
  f (fst x) (snd x) (fst y) (snd y).

(** The loops rplus (553-560), RMINUS (646-653), RTIMES (745-753) and rquo (833-840).  The accumulator is a ratio
    from here on, whatever its denominator. *)
Fixpoint rat_loop (f : Z -> Z -> Z -> Z -> result num) (rs : num) (args : list num) : result num :=
  match args with
  | [] => Val (return_ratio rs)
  | a :: r => bind (op2 f rs a) (fun rs' => rat_loop f rs' r)
  end.

(** arith.c:542-552; [fix_overflow] is the test of line 545-546 *)
Fixpoint plus_loop (is : Z) (args : list num) : result num :=
  match args with
  | [] => Val (Fix is)
  | Fix j :: r => let is := wrap64 (is + j) in if fix_overflow is then Leave else plus_loop is r
  | Rat n d :: r => rat_loop ratio_plus (makeratio is 1) args
  end.

Definition PLUS (args : list num) : result num := plus_loop 0 args.

(** arith.c:626-644 *)
Fixpoint minus_loop (is : Z) (args : list num) : result num :=
  match args with
  | [] => Val (Fix is)
  | Fix j :: r => let is := wrap64 (is - j) in if fix_overflow is then Leave else minus_loop is r
  | Rat n d :: r => rat_loop ratio_minus (makeratio is 1) args
  end.

(** arith.c:591-653 *)
Definition MINUS (args : list num) : result num :=
  match args with
  | [] => Error
  | [Fix z] => if z =? MINNEGFIXNUM then Leave else Val (Fix (- z))
  | [Rat n d] => Val (makeratio (- n) d)
  | Fix z :: r => minus_loop z r
  | Rat n d :: r => rat_loop ratio_minus (Rat n d) r
  end.

(** arith.c:714-743.  [sign] is set where a factor is negative and is not reset afterwards, but it is multiplied into
    the product each time; [is] is then negative or not. *)
Fixpoint times_loop (sign is : Z) (args : list num) : result num :=
  match args with
  | [] => Val (Fix is)
  | Fix s :: r =>
      if (s =? 0) || (is =? 0) then Val (Fix 0)
      else
        let sign := if is <? 0 then -1 else sign in
        let is := Z.abs is in
        let sign := if s <? 0 then - sign else sign in
        let s := Z.abs s in
        if 2 ^ 61 <=? is * s then Leave else times_loop sign (is * s * sign) r
  | Rat n d :: r => rat_loop ratio_times (makeratio is 1) args
  end.

(** arith.c:690-753 *)
Definition TIMES (args : list num) : result num :=
  match args with
  | [] => Undef
  | Fix z :: r => times_loop 1 z r
  | Rat n d :: r => rat_loop ratio_times (Rat n d) r
  end.

(** arith.c:822-831 *)
Fixpoint quo_loop (is : Z) (args : list num) : result num :=
  match args with
  | [] => Val (Fix is)
  | Fix j :: r => bind (quot is j) (fun q => quo_loop q r)
  | Rat n d :: r => rat_loop ratio_divide (makeratio is 1) args
  end.

(** arith.c:797-840; (/ z) makes a flonum of the fixnum's word (818-820) *)
Definition QUOTIENT (args : list num) : result num :=
  match args with
  | [] => Error
  | [Fix z] => Undef
  | Fix z :: r => quo_loop z r
  | Rat n d :: r => rat_loop ratio_divide (Rat n d) r
  end.

(** arith.c:36-63: the arguments are taken from the last one to the left.  [x] is the fixnum or, from reqnum on, the
    ratio that is compared. *)
Fixpoint eq_rat (xn xd : Z) (args : list num) : bool :=
  match args with
  | [] => true
  | a :: r =>
      let y := as_ratio a in
      if (fst y =? xn) && (snd y =? xd) then eq_rat xn xd r else false
  end.

Fixpoint eq_int (x : Z) (args : list num) : bool :=
  match args with
  | [] => true
  | Fix z :: r => if z =? x then eq_int x r else false
  | Rat n d :: r =>
      (* x=makeratio(intval(x),1); goto reqnum *)
      if (n =? wrap32 x) && (d =? 1) then eq_rat (wrap32 x) 1 r else false
  end.

Definition NUMEQUAL (args : list num) : result bool :=
  match rev args with
  | [] | [_] => Error
  | Fix x :: r => Val (eq_int x r)
  | Rat n d :: r => Val (eq_rat n d r)
  end.

(** arith.c:86-102: every argument against all those before it, last one first.  [early] are the arguments before the
    one looked at. *)
Fixpoint neq_inner (x : num) (early : list num) : bool :=
  match early with
  | [] => true
  | a :: r =>
      match NUMEQUAL [x; a] with
      | Val true => false
      | _ => neq_inner x r
      end
  end.

Fixpoint neq_outer (n : nat) (args : list num) : bool :=
  match n with
  | O => true
  | S k =>
      match nth_error args k with
      | None => true
      | Some x => if neq_inner x (firstn k args) then neq_outer k args else false
      end
  end.

Definition NUMNEQUAL (args : list num) : result bool :=
  match args with
  | [] | [_] => Error
  | _ => Val (neq_outer (length args) args)
  end.

(** printer.c:219-226 *)
Definition printratio (base : Z) (down : bool) (n d : Z) : option (list Z) :=
  match printint base down n, printint base down d with
  | Some a, Some b => Some (a ++ [47] ++ b)
  | _, _ => None
  end.

(** reader.c:849-861.  strtol gives a long; it is stored in an int. *)
Definition readratio (base : Z) (token : list Z) (slash : nat) : result num :=
  let n := wrap32 (strtol base token) in
  let d := wrap32 (strtol base (skipn (S slash) token)) in
  bind (gcd n d) (fun g =>
  if g =? 0 then Val (Fix 0)
  else bind (quot n g) (fun n' => bind (quot d g) (fun d' =>
       let n' := wrap32 n' in
       let d' := wrap32 d' in
       Val (if d' =? 1 then Fix n' else makeratio n' d')))).

(** The number of digits at the head of a text: "while (is_digit(token[j],base)) j++" *)
Fixpoint digits_len (base : Z) (s : list Z) : nat :=
  match s with
  | c :: r => if is_digit base c then S (digits_len base r) else O
  | [] => O
  end.

(** reader.c:883-895 and 926-954 for an unescaped token of constituents: upcase, length check, then the ratio branch
    of the classification.  [None]: not read as a ratio. *)
Definition read_ratio_token (base : Z) (txt : list Z) : option (result num) :=
  if (MAXTOKENLENGTH <=? length txt)%nat then None
  else
    let token := map to_upper txt in
    let j := match token with c :: _ => if (c =? 43) || (c =? 45) then 1%nat else 0%nat | [] => 0%nat end in
    let k := digits_len base (skipn j token) in
    if (k =? 0)%nat then None
    else
      let slash := (j + k)%nat in
      match nth_error token slash with
      | Some c =>
          if negb (c =? 47) then None
          else if (S slash =? length token)%nat then None
          else if (S slash + digits_len base (skipn (S slash) token) =? length token)%nat
               then Some (readratio base token slash)
               else None
      | None => None
      end.
