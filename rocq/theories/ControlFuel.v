(** More fuel does not change a result: a run shown with some fuel is the run with any larger amount.  Used for the
    concrete runs of ControlProperties. *)
From Coq Require Import ZArith List Lia Arith.
From Verif Require Import ControlModel ControlSpec ControlProofs ControlProofs2 ControlProofs3.
Import ListNotations.
Local Open Scope nat_scope.

Section Fuel.
  Variable P : nat -> exp.

  (* one step of [eval] and of [unwind], with the recursive calls as parameters *)
  Definition eval_step (ev : exp -> ctx -> res) (uw : ctx -> nat -> res) (e : exp) (s : ctx) : res :=
        match e with
        | Const w => MVal w s
        | Emit k => MVal NILw (emit s k)
        | Get x => MVal (spec s x) s
        | SetQ x e1 => match ev e1 s with MVal v s1 => MVal v (set_spec s1 x v) | r => r end
        | Progn a b => match ev a s with MVal _ s1 => ev b s1 | r => r end
        | If c a b => match ev c s with
                      | MVal v s1 => if Z.eqb v NILw then ev b s1 else ev a s1
                      | r => r
                      end
        | Let x e1 b =>                                 (* specials.c:408-460; vpush(init) takes one word *)
            match ev e1 s with
            | MVal v s1 =>
                match ev b (bindspecial (set_vsp s1 (vsp s1 + 1)) x v) with
                | MVal w s2 => match unbindspecial (set_vsp s2 (vsp s)) (vsp s) with
                               | Some s3 => MVal w s3
                               | None => MUndef
                               end
                | r => r
                end
            | r => r
            end
        | Catch tag b =>                                (* specials.c:507-531 *)
            match ev tag s with
            | MVal t s1 =>
                let fin v s2 := match mem s2 (ca s2) with
                                | FCatch next _ => MVal v (set_ca (set_vsp s2 (ca s2)) next)
                                | _ => MUndef
                                end in
                match ev b (mkcatchframe s1 t) with
                | MVal v s2 => fin v s2
                | MJump p v s2 => if p =? vsp s1 then fin (delivered v) s2 else MJump p v s2
                | r => r
                end
            | r => r
            end
        | Throw tag e1 =>                               (* specials.c:533-560 *)
            match ev tag s with
            | MVal t s1 =>
                match ev e1 s1 with
                | MVal v s2 =>
                    match find_catch (S (ca s2)) (mem s2) (ca s2) t with
                    | Found p => match uw (set_ca s2 p) p with
                                 | MVal _ s3 => MJump (ca s3) v s3
                                 | r => r
                                 end
                    | NotFound => MErr s2
                    | Bad => MUndef
                    end
                | r => r
                end
            | r => r
            end
        | Block n b =>                                  (* specials.c:647-668 *)
            match ev b (makeblock s (Some n) (bl s)) with
            | MVal v s1 => leave_block (vsp s) (vsp s) v s1
            | MJump p v s1 => if p =? vsp s then leave_block (vsp s) (vsp s) (delivered v) s1 else MJump p v s1
            | r => r
            end
        | ReturnFrom n e1 =>                            (* specials.c:670-691 *)
            match find_block (S (bl s)) (mem s) (bl s) n with
            | Found q =>
                match ev e1 s with
                | MVal v s1 =>
                    match uw (set_bl s1 q) q with
                    | MVal _ s2 => MJump (bl s2) (if Z.eqb v (int_word 0) then zero_flonum else v) s2
                    | r => r
                    end
                | r => r
                end
            | NotFound => MErr s
            | Bad => MUndef
            end
        | Loop c b =>                                   (* specials.c:382-383 *)
            match ev c s with
            | MVal v s1 => if Z.eqb v NILw then MVal NILw s1
                           else match ev b s1 with MVal _ s2 => ev (Loop c b) s2 | r => r end
            | r => r
            end
        | Protect e1 c =>                               (* specials.c:705-735 *)
            match ev e1 (mkprotect s c) with
            | MVal v s1 => match ev c (set_pr (set_vsp s1 (vsp s)) (pr s)) with
                           | MVal _ s2 => MVal v s2
                           | r => r
                           end
            | r => r
            end
        | Call g => funlambda ev (Some g) (P g) s
        end.
  Definition unwind_step (ev : exp -> ctx -> res) (uw : ctx -> nat -> res) (s : ctx) (p : nat) : res :=
        if p <=? pr s then
          match mem s (pr s) with
          | FProtect link c => match funlambda ev None c (set_pr s link) with
                               | MVal _ s1 => uw s1 p
                               | r => r
                               end
          | _ => MUndef
          end
        else
          match unbindspecial s p with
          | None => MUndef
          | Some s1 => match pop_blocks (S (bl s1)) p s1 with
                       | None => MUndef
                       | Some s2 => match pop_catches (S (ca s2)) p s2 with
                                    | None => MUndef
                                    | Some s3 => MVal NILw s3
                                    end
                       end
          end.
  Lemma eval_S f e s : eval P (S f) e s = eval_step (eval P f) (unwind P f) e s.
  Proof. destruct e; reflexivity. Qed.
  Lemma unwind_S f s p : unwind P (S f) s p = unwind_step (eval P f) (unwind P f) s p.
  Proof. reflexivity. Qed.

  Definition upto (r r' : res) : Prop := r = MFuel \/ r = r'.
  Section Step.
    Variables (ev ev' : exp -> ctx -> res) (uw uw' : ctx -> nat -> res).
    Hypothesis Hev : forall e s, upto (ev e s) (ev' e s).
    Hypothesis Huw : forall s p, upto (uw s p) (uw' s p).
    Ltac one := match goal with
      | |- upto ?a ?a => right; reflexivity
      | |- upto (uw ?a ?b) (uw' ?a ?b) => apply Huw
      | |- upto (ev ?a ?b) (ev' ?a ?b) => apply Hev
      | |- context [ev ?e ?s] => let E := fresh "E" in let X := fresh "X" in
          destruct (Hev e s) as [E|E]; [rewrite E; left; reflexivity|rewrite <- E; clear E; destruct (ev e s) as [? ?|? ? ?|?| |] eqn:X; clear X]
      | |- context [uw ?s ?p] => let E := fresh "E" in let X := fresh "X" in
          destruct (Huw s p) as [E|E]; [rewrite E; left; reflexivity|rewrite <- E; clear E; destruct (uw s p) as [? ?|? ? ?|?| |] eqn:X; clear X]
      | |- context [if ?b then _ else _] => destruct b
      | |- context [match ?m with Found _ => _ | NotFound => _ | Bad => _ end] => destruct m
      | |- context [match ?m with FNone => _ | _ => _ end] => destruct m
      | |- context [match ?m with Some _ => _ | None => _ end] => destruct m
      end.
    Lemma eval_step_upto e s : upto (eval_step ev uw e s) (eval_step ev' uw' e s).
    Proof. destruct e; cbn [eval_step]; unfold funlambda; cbv zeta; repeat one. Qed.
    Lemma unwind_step_upto s p : upto (unwind_step ev uw s p) (unwind_step ev' uw' s p).
    Proof. unfold unwind_step, funlambda. repeat one; destruct (leave_function _ _ _ _ _); repeat one. Qed.
  End Step.

  Lemma one_more f : (forall e s, upto (eval P f e s) (eval P (S f) e s)) /\ (forall s p, upto (unwind P f s p) (unwind P (S f) s p)).
  Proof.
    induction f as [|f [IHe IHu]].
    - split; intros; left; reflexivity.
    - split; intros.
      + rewrite (eval_S f), (eval_S (S f)). apply eval_step_upto; assumption.
      + rewrite (unwind_S f), (unwind_S (S f)). apply unwind_step_upto; assumption.
  Qed.
  Theorem eval_more f g e s r : f <= g -> eval P f e s = r -> r <> MFuel -> eval P g e s = r.
  Proof.
    intros L E N. induction L as [|g L IH]; [exact E|].
    destruct (proj1 (one_more g) e s) as [X|X]; congruence.
  Qed.
  Lemma computes_run f e base sp r : eval P f e (start base sp) = r -> r <> MFuel -> computes P e base sp r.
  Proof. intros E N. exists f. intros g L. exact (eval_more f g e _ r L E N). Qed.
End Fuel.
