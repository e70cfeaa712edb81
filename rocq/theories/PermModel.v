(** Model of lib/llib/perm.l: list-permutation (10-22), the class permutation (28-64), combi and combi2 (74-87).

    Lists are values.  mapcan joins the fresh lists that perm2 makes, so it is modelled by the concatenation of the values in
    order; mapcon is [MapModel.mapcon], which reverses each part (lisp/l/common.l:466-481).  r is a natural number. *)
From Verif Require Import MapModel.

Section Model.
Context {A : Type}.

(** perm.l:11-16 *)
Fixpoint perm2 (a : A) (bb cc : list A) (dd : list (list A)) : list (list A) :=
  match cc with
  | [] => (bb ++ [a]) :: dd
  | c :: cc' => perm2 a (bb ++ [c]) cc' ((bb ++ [a] ++ cc) :: dd)
  end.

(** perm.l:10-22 *)
Fixpoint list_permutation (x : list A) : list (list A) :=
  match x with
  | [] => []
  | [a] => [[a]]
  | a :: r => concat (map (fun y => perm2 a [] y []) (list_permutation r))
  end.

(** A function without effects for [MapModel] *)
Definition run {B} (m : comp unit B) : option B := snd (m tt).

(** perm.l:74-80.  With r = 0 it counts further down below zero, to the same effect.  The recursion goes down the list; [fuel] is its length. *)
Fixpoint combi (fuel : nat) (lst : list A) (r : nat) : option (list (list A)) :=
  match r with
  | 1 => Some (map (fun a => [a]) lst)
  | _ =>
      match fuel with
      | O => match lst with [] => Some [] | _ => None end
      | S f =>
          run (mapcon (fun ys => match ys with
                                 | (y :: t) :: _ =>
                                     match combi f t (r - 1) with
                                     | Some zs => ret (map (cons y) zs)
                                     | None => fail
                                     end
                                 | _ => fail
                                 end) lst [])
      end
  end.

(** perm.l:82-87 *)
Definition combi2 (lst : list A) : option (list (list A)) :=
  run (mapcon (fun ys => match ys with
                         | (x :: t) :: _ => ret (map (fun y => [x; y]) t)
                         | _ => fail
                         end) lst []).
End Model.

(** ** The generator *)

Section Generator.
Context {A : Type}.

(** perm.l:28-29 and 53-64: the slots; [a] is (car mlist) all the time.  An unbound sub-permutation is [Single]. *)
Inductive generator : Type :=
| Single (mlist b c : list A)                       (* mlist has at most one element *)
| Sub (a : A) (sub : generator) (b c : list A).

Fixpoint init (l : list A) : generator :=
  match l with
  | [] => Single [] [] []
  | [a] => Single [a] [] []
  | a :: r => Sub a (init r) [] []
  end.

(** perm.l:32-48 [:next]; NIL is the empty list *)
Fixpoint next (g : generator) : generator * list A :=
  match g with
  | Single m b c =>
      (* c is always NIL here *)
      match b with
      | [] => (Single m m c, m)
      | _ => (Single m b c, [])
      end
  | Sub a sub b c =>
      let scr :=
        match c with
        | [] => match b with
                | [] => let p := next sub in (fst p, snd p, None)
                | _ => (sub, [], Some (b ++ [a]))
                end
        | _ => (sub, c, None)
        end in
      let sub := fst (fst scr) in
      let c := snd (fst scr) in
      match snd scr with
      | Some r => (Sub a sub [] c, r)
      | None =>
          match c with
          | [] => (Sub a sub b [], [])
          | x :: c' => (Sub a sub (b ++ [x]) c', b ++ [a] ++ c)
          end
      end
  end.

(** perm.l:49-52 [:all] pushes what [:next] returns until NIL; [None] if [fuel] is too small *)
Fixpoint all (fuel : nat) (g : generator) (r : list (list A)) : option (list (list A)) :=
  match fuel with
  | O => None
  | S f => let p := next g in
           match snd p with
           | [] => Some r
           | x => all f (fst p) (x :: r)
           end
  end.
End Generator.
