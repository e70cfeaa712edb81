(** Proofs about pathnames. *)
From Verif Require Import Word StrModel PathModel.

(** * Specification vocabulary *)

(** The pieces between the slashes; there is one more than there are slashes. *)
Fixpoint split (p : str) : list str :=
  match p with
  | [] => [[]]
  | c :: r => if c =? 47 then [] :: split r
              else match split r with s :: t => (c :: s) :: t | [] => [[c]] end
  end.

(** Runs of slashes made one slash *)
Fixpoint squeeze (p : str) : str :=
  match p with
  | [] => []
  | c :: r => if c =? 47 then (match r with d :: _ => if d =? 47 then squeeze r else c :: squeeze r | [] => [c] end)
              else c :: squeeze r
  end.

Definition nonempty (s : str) : bool := match s with [] => false | _ => true end.
Definition starts (c : Z) (s : str) : Prop := exists r, s = c :: r.
Definition absolute (s : str) : bool := match s with c :: _ => c =? 47 | [] => false end.

(** Name and type of the last piece: the type is what follows the last period; ".." is a name. *)
Definition file_parts (f : str) (n t : option str) : Prop :=
  (f = [46; 46] /\ n = Some f /\ t = None) \/
  (f <> [46; 46] /\ ~ In 46 f /\ t = None /\ n = if nonempty f then Some f else None) \/
  (f <> [46; 46] /\ exists a b, f = a ++ 46 :: b /\ ~ In 46 b /\ t = Some b /\ n = if nonempty a then Some a else None).

(** The directory of a name *)
Definition directories (p : str) : list comp :=
  (if absolute p then [Root] else []) ++ map Name (filter nonempty (removelast (split p))).
Definition last_piece (p : str) : str := last (split p) [].

(** Strings the parser takes as they are: not empty, no colon, no tilde in front *)
Definition plain (p : str) : Prop := p <> [] /\ ~ In 58 p /\ ~ starts 126 p.

(** * The search functions *)

Lemma index_of_some c s k : index_of c s = Some k -> exists a b, s = a ++ c :: b /\ ~ In c a /\ length a = k.
Proof.
  revert k. induction s as [|x s IH]; intros k H; [discriminate|]. cbn [index_of] in H.
  destruct (Z.eqb_spec x c) as [->|N].
  - inversion H; subst. exists [], s. split; [reflexivity|]. split; [intros []|reflexivity].
  - destruct (index_of c s) as [j|]; [|discriminate]. inversion H; subst.
    destruct (IH j eq_refl) as (a & b & E & I & L). exists (x :: a), b. subst. split; [reflexivity|].
    split; [intros [F|F]; [congruence|contradiction]|cbn [length]; congruence].
Qed.

Lemma index_of_none c s : index_of c s = None -> ~ In c s.
Proof.
  induction s as [|x s IH]; intros H; [intros []|]. cbn [index_of] in H.
  destruct (Z.eqb_spec x c) as [->|N]; [discriminate|].
  destruct (index_of c s) as [j|]; [discriminate|]. intros [F|F]; [congruence|]. exact (IH eq_refl F).
Qed.

Lemma index_of_notin c s : ~ In c s -> index_of c s = None.
Proof.
  intros H. destruct (index_of c s) as [k|] eqn:E; [|reflexivity]. exfalso.
  destruct (index_of_some _ _ _ E) as (a & b & -> & _). apply H. apply in_or_app. right. left. reflexivity.
Qed.

Lemma index_of_app c a b : ~ In c a -> index_of c (a ++ c :: b) = Some (length a).
Proof.
  induction a as [|x a IH]; intros H; cbn [app index_of length].
  - rewrite Z.eqb_refl. reflexivity.
  - destruct (Z.eqb_spec x c) as [->|N]; [exfalso; apply H; left; reflexivity|].
    rewrite IH by (intros F; apply H; right; exact F). reflexivity.
Qed.

Lemma skipn_len (l r : str) : skipn (length l) (l ++ r) = r.
Proof. rewrite skipn_app, skipn_all, Nat.sub_diag. reflexivity. Qed.

Lemma position_some c (l a b : str) : ~ In c a -> position c (l ++ a ++ c :: b) (length l) = Some (length (l ++ a)).
Proof. intros H. unfold position. rewrite skipn_len, index_of_app by exact H. cbn. rewrite app_length. reflexivity. Qed.

Lemma position_none c (l a : str) : ~ In c a -> position c (l ++ a) (length l) = None.
Proof. intros H. unfold position. rewrite skipn_len, index_of_notin by exact H. reflexivity. Qed.

Lemma sub_mid (l a r : str) : sub (l ++ a ++ r) (length l) (length (l ++ a)) = a.
Proof.
  unfold sub. rewrite skipn_len, app_length. replace (length l + length a - length l)%nat with (length a) by lia.
  rewrite firstn_app, firstn_all, Nat.sub_diag. cbn [firstn]. apply app_nil_r.
Qed.

Lemma cut c (s : str) : ~ In c s \/ exists a b, s = a ++ c :: b /\ ~ In c a.
Proof.
  destruct (index_of c s) as [k|] eqn:E.
  - right. destruct (index_of_some _ _ _ E) as (a & b & -> & N & _). exists a, b. split; [reflexivity|exact N].
  - left. apply index_of_none. exact E.
Qed.

(** * Splitting *)

Lemma split_ne p : split p <> [].
Proof. destruct p as [|c r]; cbn [split]; [discriminate|]. destruct (c =? 47); [discriminate|]. destruct (split r); discriminate. Qed.

Lemma split_notin a : ~ In 47 a -> split a = [a].
Proof.
  induction a as [|c a IH]; intros H; [reflexivity|]. cbn [split].
  destruct (Z.eqb_spec c 47) as [->|N]; [exfalso; apply H; left; reflexivity|].
  rewrite IH by (intros F; apply H; right; exact F). reflexivity.
Qed.

Lemma split_app a b : ~ In 47 a -> split (a ++ 47 :: b) = a :: split b.
Proof.
  induction a as [|c a IH]; intros H; [reflexivity|]. cbn [split app].
  destruct (Z.eqb_spec c 47) as [->|N]; [exfalso; apply H; left; reflexivity|].
  rewrite IH by (intros F; apply H; right; exact F). reflexivity.
Qed.

Lemma removelast_cons (a : str) l : l <> [] -> removelast (a :: l) = a :: removelast l.
Proof. destruct l; [contradiction|reflexivity]. Qed.
Lemma last_cons (a : str) l d : l <> [] -> last (a :: l) d = last l d.
Proof. destruct l; [contradiction|reflexivity]. Qed.

Lemma last_split_notin p : ~ In 47 (last (split p) []).
Proof.
  remember (length p) as n eqn:L. revert p L. induction n as [n IH] using lt_wf_ind. intros p L.
  destruct (cut 47 p) as [N|(a & b & -> & N)].
  - rewrite split_notin by exact N. exact N.
  - rewrite split_app, last_cons by (try exact N; apply split_ne). apply (IH (length b)); [|reflexivity].
    subst n. rewrite app_length. cbn [length]. lia.
Qed.

(** The string before the last piece *)
Lemma last_split_suffix p : exists q, p = q ++ last (split p) [].
Proof.
  remember (length p) as n eqn:L. revert p L. induction n as [n IH] using lt_wf_ind. intros p L.
  destruct (cut 47 p) as [N|(a & b & -> & N)].
  - rewrite split_notin by exact N. exists []. reflexivity.
  - rewrite split_app, last_cons by (try exact N; apply split_ne).
    destruct (IH (length b)) with (p := b) as (q & E); [subst n; rewrite app_length; cbn [length]; lia|reflexivity|].
    exists (a ++ 47 :: q). rewrite <- app_assoc. cbn [app]. rewrite <- E. reflexivity.
Qed.

Lemma dir_loop_ok : forall fuel l r dirs, (length r < fuel)%nat ->
  exists q, l ++ r = q ++ last (split r) [] /\
    dir_loop fuel (l ++ r) (length l) dirs =
      Some (length q, rev (map Name (filter nonempty (removelast (split r)))) ++ dirs).
Proof.
  induction fuel as [|fuel IH]; intros l r dirs L; [lia|]. cbn [dir_loop].
  destruct (cut 47 r) as [N|(a & b & -> & N)].
  - rewrite position_none, split_notin by exact N. cbn [last removelast filter map rev app]. exists l.
    split; reflexivity.
  - unfold SLASH. rewrite position_some, split_app by exact N. cbv zeta. rewrite sub_mid.
    rewrite removelast_cons, last_cons by apply split_ne.
    replace (length (l ++ a) + 1)%nat with (length ((l ++ a) ++ [47])) by (rewrite app_length; reflexivity).
    replace (l ++ a ++ 47 :: b) with (((l ++ a) ++ [47]) ++ b) by (rewrite <- !app_assoc; reflexivity).
    rewrite app_length in L. cbn [length] in L.
    destruct (IH ((l ++ a) ++ [47]) b (if (0 <? length a)%nat then Name a :: dirs else dirs) ltac:(lia)) as (q & E & D).
    exists q. split; [exact E|]. rewrite D. do 2 f_equal. cbn [filter].
    destruct a as [|x a]; [reflexivity|]. cbn [nonempty length Nat.ltb Nat.leb map rev]. rewrite <- app_assoc. reflexivity.
Qed.

Lemma period_loop_ok : forall fuel l r, (length r < fuel)%nat ->
  (~ In 46 r /\ period_loop fuel (l ++ r) (length l) = Some (length l)) \/
  (exists a b, r = a ++ 46 :: b /\ ~ In 46 b /\
     period_loop fuel (l ++ r) (length l) = Some (length (l ++ a ++ [46]))).
Proof.
  induction fuel as [|fuel IH]; intros l r L; [lia|]. cbn [period_loop].
  destruct (cut 46 r) as [N|(a & b & -> & N)].
  - left. split; [exact N|]. unfold DOT. rewrite position_none by exact N. reflexivity.
  - right. unfold DOT. rewrite position_some by exact N.
    replace (length (l ++ a) + 1)%nat with (length (l ++ a ++ [46])) by (rewrite !app_length; cbn [length]; lia).
    replace (l ++ a ++ 46 :: b) with ((l ++ a ++ [46]) ++ b) by (rewrite <- !app_assoc; reflexivity).
    rewrite app_length in L. cbn [length] in L.
    destruct (IH (l ++ a ++ [46]) b ltac:(lia)) as [[N' E]|(a' & b' & -> & N' & E)].
    + exists a, b. split; [reflexivity|]. split; [exact N'|exact E].
    + exists (a ++ 46 :: a'), b'. split; [rewrite <- app_assoc; reflexivity|]. split; [exact N'|].
      rewrite E. f_equal. f_equal. rewrite <- !app_assoc. reflexivity.
Qed.

Lemma str_eqb_spec a b : reflect (a = b) (str_eqb a b).
Proof. unfold str_eqb. destruct (list_eq_dec Z.eq_dec a b); constructor; assumption. Qed.

(** The end of the parser, from the last piece on *)
Definition parse_file (h : option str) (p : path) (pn : str) (dirs : list comp) (slash : nat) : result path :=
  let namestr := sub_from pn slash in
  if str_eqb namestr [DOT; DOT] then Val (mkPath h (device p) dirs (Some namestr) None (version p))
  else
    match position DOT pn slash with
    | None =>
        let nm := if (slash <? length pn)%nat then Some (sub_from pn slash) else name p in
        Val (mkPath h (device p) dirs nm (type p) (version p))
    | Some period =>
        match period_loop (length pn + 1) pn (period + 1) with
        | None => Undef
        | Some period =>
            let nm := sub pn slash (period - 1) in
            Val (mkPath h (device p) dirs (if null_string nm then None else Some nm)
                   (Some (sub_from pn period)) (version p))
        end
    end.

Lemma null_string_spec s : null_string s = negb (nonempty s).
Proof. unfold null_string. destruct (str_eqb_spec s []) as [->|N]; [reflexivity|]. destruct s; [contradiction|reflexivity]. Qed.

Lemma parse_file_ok h p q f dirs : type p = None -> name p = None ->
  exists n t, parse_file h p (q ++ f) dirs (length q) = Val (mkPath h (device p) dirs n t (version p)) /\ file_parts f n t.
Proof.
  intros T Nm. unfold parse_file, sub_from. rewrite skipn_len. unfold DOT.
  destruct (str_eqb_spec f [46; 46]) as [->|NE].
  - exists (Some [46; 46]), None. split; [reflexivity|]. left. split; [reflexivity|]. split; reflexivity.
  - destruct (cut 46 f) as [N|(a & b & -> & N)].
    + rewrite position_none by exact N. rewrite T, Nm. eexists. eexists. split; [reflexivity|].
      right. left. split; [exact NE|]. split; [exact N|]. split; [reflexivity|].
      rewrite app_length. destruct f as [|x f]; cbn [nonempty length].
      * destruct (Nat.ltb_spec (length q) (length q + 0)); [lia|reflexivity].
      * destruct (Nat.ltb_spec (length q) (length q + S (length f))); [reflexivity|lia].
    + rewrite position_some by exact N.
      replace (length (q ++ a) + 1)%nat with (length (q ++ a ++ [46])) by (rewrite !app_length; cbn [length]; lia).
      assert (G : forall a' b', a ++ 46 :: b = a' ++ 46 :: b' -> ~ In 46 b' ->
        period_loop (length (q ++ a ++ 46 :: b) + 1) (q ++ a ++ 46 :: b) (length (q ++ a ++ [46])) = Some (length (q ++ a' ++ [46])) ->
        exists n t, match period_loop (length (q ++ a ++ 46 :: b) + 1) (q ++ a ++ 46 :: b) (length (q ++ a ++ [46])) with
          | None => Undef
          | Some period => Val (mkPath h (device p) dirs (if null_string (sub (q ++ a ++ 46 :: b) (length q) (period - 1)) then None
                else Some (sub (q ++ a ++ 46 :: b) (length q) (period - 1))) (Some (skipn period (q ++ a ++ 46 :: b))) (version p))
          end = Val (mkPath h (device p) dirs n t (version p)) /\ file_parts (a ++ 46 :: b) n t).
      { intros a' b' E N' P. rewrite P. rewrite E in NE |- *.
        replace (length (q ++ a' ++ [46]%Z) - 1)%nat with (length (q ++ a')) by (rewrite !app_length; cbn [length]; lia).
        rewrite sub_mid. replace (q ++ a' ++ 46 :: b') with ((q ++ a' ++ [46]) ++ b') by (rewrite <- !app_assoc; reflexivity).
        rewrite skipn_len, null_string_spec. exists (if nonempty a' then Some a' else None), (Some b').
        split; [destruct (nonempty a'); reflexivity|]. right. right. split; [exact NE|]. exists a', b'.
        split; [reflexivity|]. split; [exact N'|]. split; reflexivity. }
      assert (E : q ++ a ++ 46 :: b = (q ++ a ++ [46]) ++ b) by (rewrite <- !app_assoc; reflexivity).
      destruct (period_loop_ok (length (q ++ a ++ 46 :: b) + 1) (q ++ a ++ [46]) b) as [[N' P]|(a' & b' & -> & N' & P)].
      * rewrite !app_length. cbn [length]. lia.
      * apply (G a b eq_refl N'). rewrite E at 2. exact P.
      * apply (G (a ++ 46 :: a') b'); [rewrite <- app_assoc; reflexivity|exact N'|].
        rewrite E at 2. rewrite P. do 2 f_equal. rewrite <- !app_assoc. reflexivity.
Qed.

Lemma file_parts_fun f n t n' t' : file_parts f n t -> file_parts f n' t' -> n = n' /\ t = t'.
Proof.
  intros [(A & B & C)|[(A & B & C & D)|(A & a & b & E & B & C & D)]];
  intros [(A' & B' & C')|[(A' & B' & C' & D')|(A' & a' & b' & E' & B' & C' & D')]]; try congruence; subst.
  - split; reflexivity.
  - split; reflexivity.
  - exfalso. apply B. apply in_or_app. right. left. reflexivity.
  - exfalso. apply B'. apply in_or_app. right. left. reflexivity.
  - assert (X : a = a' /\ b = b'); [|destruct X; subst; split; reflexivity].
    clear A A'. revert a' E'. induction a as [|x a IH]; intros [|y a'] E'; cbn [app] in E'.
    + inversion E'. split; reflexivity.
    + inversion E'; subst. exfalso. apply B. apply in_or_app. right. left. reflexivity.
    + inversion E'; subst. exfalso. apply B'. apply in_or_app. right. left. reflexivity.
    + inversion E'; subst. destruct (IH a' ltac:(assumption)) as [-> ->]. split; reflexivity.
Qed.

(** * The parser *)

Lemma parse_plain home p : plain p ->
  exists n t, pathname home p = Val (mkPath None None (directories p) n t None) /\ file_parts (last_piece p) n t.
Proof.
  intros (NE & NC & NT). unfold pathname, parse_namestring.
  destruct p as [|c r]; [contradiction|]. cbn [length Nat.eqb]. clear NE.
  assert (P : position COLON (c :: r) 0 = None).
  { unfold position, COLON. cbn [skipn]. rewrite index_of_notin by exact NC. reflexivity. }
  rewrite P. cbn [snd fst host blank]. cbn [Nat.leb nth]. unfold SLASH at 1, TILDE, directories, last_piece, absolute.
  destruct (Z.eqb_spec c 47) as [->|NS].
  - change (0 + 1)%nat with (length [47]). change (47 :: r) with ([47] ++ r).
    destruct (dir_loop_ok (S (length r) + 1) [47] r [Root] ltac:(lia)) as (q & E & D).
    rewrite D. cbv zeta. rewrite rev_app_distr, rev_involutive. cbn [rev app].
    destruct (parse_file_ok None blank q (last (split r) []) (Root :: map Name (filter nonempty (removelast (split r)))) eq_refl eq_refl)
      as (n & t & F & G).
    exists n, t. change (split (47 :: r)) with ([] :: split r). rewrite last_cons, removelast_cons by apply split_ne. cbn [filter nonempty]. split; [|exact G].
    rewrite <- E in F. exact F.
  - destruct (Z.eqb_spec c 126) as [->|NT']; [exfalso; apply NT; exists r; reflexivity|].
    destruct (dir_loop_ok (S (length r) + 1) [] (c :: r) [] ltac:(cbn [length]; lia)) as (q & E & D).
    cbn [app length] in D. rewrite D. cbv zeta. rewrite app_nil_r, rev_involutive.
    destruct (parse_file_ok None blank q (last (split (c :: r)) []) (map Name (filter nonempty (removelast (split (c :: r))))) eq_refl eq_refl)
      as (n & t & F & G).
    exists n, t. split; [|exact G]. cbn [app] in *. rewrite <- E in F. exact F.
Qed.

(** * The printed name *)

(** Directory part and last piece, written out *)
Definition written (p : str) : str :=
  concat (map (fun s => s ++ [47]) (filter nonempty (removelast (split p)))) ++ last (split p) [].

Lemma written_slash r : written (47 :: r) = written r.
Proof. unfold written. cbn [split Z.eqb Pos.eqb]. rewrite last_cons, removelast_cons by apply split_ne. reflexivity. Qed.

Lemma written_other c r : c <> 47 -> written (c :: r) = c :: (if absolute r then [47] else []) ++ written r.
Proof.
  intros N. unfold written. cbn [split]. destruct (Z.eqb_spec c 47); [contradiction|].
  destruct r as [|d r]; [reflexivity|]. cbn [split absolute]. destruct (Z.eqb_spec d 47) as [->|N'].
  - rewrite !last_cons, !removelast_cons by apply split_ne. reflexivity.
  - destruct (split r) as [|s t] eqn:E; [exfalso; exact (split_ne r E)|].
    destruct t as [|u t]; [reflexivity|]. rewrite !last_cons, !removelast_cons by discriminate. reflexivity.
Qed.

Lemma squeeze_written p : squeeze p = (if absolute p then [47] else []) ++ written p.
Proof.
  induction p as [|c r IH]; [reflexivity|]. cbn [squeeze absolute]. destruct (Z.eqb_spec c 47) as [->|N].
  - rewrite written_slash. destruct r as [|d r]; [reflexivity|]. cbn [absolute] in IH.
    destruct (Z.eqb_spec d 47) as [->|N']; [exact IH|]. rewrite IH. reflexivity.
  - rewrite written_other by exact N. rewrite IH. reflexivity.
Qed.

Lemma dir_text_names l : dir_text (map Name l) = Val (concat (map (fun s => s ++ [47]) l)).
Proof.
  induction l as [|s l IH]; [reflexivity|]. cbn [map dir_text concat]. rewrite IH. cbn [bind]. unfold SLASH.
  rewrite <- app_assoc. reflexivity.
Qed.

Lemma directory_string_ok p ab l : directory p = (if ab : bool then [Root] else []) ++ map Name l ->
  exists o, directory_string p = Val o /\ or_empty o = (if ab then [47] else []) ++ concat (map (fun s => s ++ [47]) l).
Proof.
  intros E. unfold directory_string. rewrite E. destruct ab; cbn [app].
  - rewrite dir_text_names. cbn [bind]. eexists. split; [reflexivity|]. reflexivity.
  - destruct l as [|s l]; [exists None; split; reflexivity|].
    pose proof (dir_text_names (s :: l)) as X. cbn [map] in X |- *. rewrite X. eexists. split; [reflexivity|]. reflexivity.
Qed.

(** The text of name and type *)
Definition file_text (n t : option str) : str :=
  or_empty n ++ match t with Some t => 46 :: t | None => [] end.

Lemma file_parts_text f n t : file_parts f n t -> file_text n t = f.
Proof.
  unfold file_text. intros [(A & -> & ->)|[(A & B & -> & ->)|(A & a & b & -> & B & -> & ->)]].
  - apply app_nil_r.
  - destruct f; [reflexivity|]. cbn [nonempty or_empty]. apply app_nil_r.
  - destruct a; reflexivity.
Qed.

Lemma namestring_ok p ab l : directory p = (if ab : bool then [Root] else []) ++ map Name l ->
  namestring p = Val (or_empty (host p) ++ or_empty (device p) ++
    ((if ab then [47] else []) ++ concat (map (fun s => s ++ [47]) l)) ++ file_text (name p) (type p)).
Proof.
  intros E. unfold namestring. destruct (directory_string_ok p ab l E) as (o & -> & O). cbn [bind]. rewrite O.
  unfold file_text. destruct (name p), (type p); cbn [or_empty app]; rewrite ?app_nil_r; reflexivity.
Qed.

Theorem namestring_pathname home p : plain p -> exists q, pathname home p = Val q /\ namestring q = Val (squeeze p).
Proof.
  intros P. destruct (parse_plain home p P) as (n & t & E & F). eexists. split; [exact E|].
  rewrite (namestring_ok _ (absolute p) (filter nonempty (removelast (split p)))) by reflexivity.
  cbn [host device name type or_empty app]. rewrite (file_parts_text _ _ _ F). f_equal.
  rewrite squeeze_written. unfold written, last_piece. rewrite app_assoc. reflexivity.
Qed.

(** * Reading the printed name back *)

(** Directory names and file parts that a name can express *)
Definition dir_name (s : str) : Prop := s <> [] /\ ~ In 47 s /\ ~ In 58 s.
Definition expressible (q : path) : Prop :=
  host q = None /\ device q = None /\ version q = None /\
  (exists (ab : bool) l, directory q = (if ab then [Root] else []) ++ map Name l /\ Forall dir_name l) /\
  (exists f, file_parts f (name q) (type q) /\ ~ In 47 f /\ ~ In 58 f) /\
  q <> blank /\
  (forall s, namestring q = Val s -> ~ starts 126 s).

Lemma split_dirs l f : Forall dir_name l -> ~ In 47 f ->
  split (concat (map (fun s => s ++ [47]) l) ++ f) = l ++ [f].
Proof.
  intros D N. induction D as [|s l (NE & NS & NC) D IH]; [apply split_notin; exact N|].
  cbn [map concat]. rewrite <- !app_assoc. cbn [app]. rewrite split_app by exact NS. rewrite IH. reflexivity.
Qed.

Lemma filter_dirs l : Forall dir_name l -> filter nonempty l = l.
Proof.
  intros D. induction D as [|s l (NE & _) D IH]; [reflexivity|]. cbn [filter].
  destruct s as [|c s]; [contradiction|]. cbn [nonempty]. rewrite IH. reflexivity.
Qed.

Lemma removelast_last (l : list str) x : removelast (l ++ [x]) = l.
Proof. apply removelast_last. Qed.

Lemma last_last' (l : list str) x d : last (l ++ [x]) d = x.
Proof. apply last_last. Qed.

Lemma directories_dirs (ab : bool) l f : Forall dir_name l -> ~ In 47 f ->
  let s := (if ab then [47] else []) ++ concat (map (fun s => s ++ [47]) l) ++ f in
  directories s = (if ab then [Root] else []) ++ map Name l /\ last_piece s = f.
Proof.
  intros D N s. subst s. unfold directories, last_piece. destruct ab; cbn [app].
  - cbn [split absolute Z.eqb Pos.eqb]. rewrite removelast_cons, last_cons by apply split_ne. cbn [filter nonempty].
    rewrite split_dirs, removelast_last, last_last', filter_dirs by assumption. split; reflexivity.
  - rewrite split_dirs, removelast_last, last_last', filter_dirs by assumption. split; [|reflexivity].
    destruct D as [|s l (NE & NS & _) D].
    + cbn [map concat app]. destruct f as [|c f]; [reflexivity|]. cbn [absolute].
      destruct (Z.eqb_spec c 47) as [->|]; [exfalso; apply N; left; reflexivity|reflexivity].
    + destruct s as [|c s]; [contradiction|]. cbn [map concat app absolute].
      destruct (Z.eqb_spec c 47) as [->|]; [exfalso; apply NS; left; reflexivity|reflexivity].
Qed.

Lemma concat_in l c : In c (concat (map (fun s => s ++ [47]) l)) -> c = 47 \/ Exists (In c) l.
Proof.
  induction l as [|s l IH]; [intros []|]. cbn [map concat]. intros H. apply in_app_or in H. destruct H as [H|H].
  - apply in_app_or in H. destruct H as [H|[H|[]]]; [right; left; exact H|left; symmetry; exact H].
  - destruct (IH H) as [X|X]; [left; exact X|right; right; exact X].
Qed.

Theorem pathname_namestring home q : expressible q -> exists s, namestring q = Val s /\ pathname home s = Val q.
Proof.
  intros (H & Dv & V & (ab & l & D & Fl) & (f & F & NS & NC) & NB & NT).
  pose proof (namestring_ok q ab l D) as E. rewrite H, Dv in E. cbn [or_empty app] in E.
  rewrite (file_parts_text _ _ _ F), <- app_assoc in E. eexists. split; [exact E|].
  destruct (directories_dirs ab l f Fl NS) as [DD LP].
  destruct (parse_plain home ((if ab then [47] else []) ++ concat (map (fun s => s ++ [47]) l) ++ f)) as (n & t & P & G).
  - split; [|split].
    + intros X. apply app_eq_nil in X. destruct X as [X1 X2]. apply app_eq_nil in X2. destruct X2 as [X2 X3].
      destruct ab; [discriminate|]. destruct l as [|s l]; [|cbn [map concat] in X2; destruct s; discriminate].
      subst f. apply NB. destruct q as [qh qd qdir qn qt qv]. cbn in *. subst.
      destruct F as [(A & _)|[(_ & _ & B1 & B2)|(_ & a & b & B1 & _)]]; [discriminate| |destruct a; discriminate].
      cbn in B2. rewrite B1, B2. reflexivity.
    + intros X. apply in_app_or in X. destruct X as [X|X]; [destruct ab; [destruct X as [X|[]]; discriminate|destruct X]|].
      apply in_app_or in X. destruct X as [X|X]; [|contradiction]. apply concat_in in X. destruct X as [X|X]; [discriminate|].
      apply Exists_exists in X. destruct X as (s & I1 & I2). rewrite Forall_forall in Fl. destruct (Fl s I1) as (_ & _ & C). contradiction.
    + apply NT. exact E.
  - rewrite P. rewrite DD. rewrite LP in G. destruct (file_parts_fun _ _ _ _ _ F G) as [<- <-].
    f_equal. destruct q as [qh qd qdir qn qt qv]. cbn in *. subst. reflexivity.
Qed.

(** Parsing only depends on the squeezed name. *)
Lemma squeeze_absolute p : absolute (squeeze p) = absolute p.
Proof.
  induction p as [|c r IH]; [reflexivity|]. cbn [squeeze absolute]. destruct (Z.eqb_spec c 47) as [->|N].
  - destruct r as [|d r]; [reflexivity|]. destruct (Z.eqb_spec d 47) as [->|N'].
    + rewrite IH. reflexivity.
    + reflexivity.
  - cbn [absolute]. apply Z.eqb_neq. exact N.
Qed.

Lemma split_pieces p : Forall (fun s => ~ In 47 s) (split p).
Proof.
  induction p as [|c r IH]; cbn [split]; [constructor; [intros []|constructor]|].
  destruct (Z.eqb_spec c 47); [constructor; [intros []|exact IH]|].
  destruct (split r) as [|s t]; [constructor; [|constructor]|].
  - intros [X|[]]. contradiction.
  - inversion IH; subst. constructor; [|assumption]. intros [X|X]; contradiction.
Qed.

Lemma split_in c p : Exists (In c) (split p) -> In c p.
Proof.
  induction p as [|d r IH]; cbn [split]; intros H; [inversion H as [? ? X|? ? X]; [destruct X|inversion X]|].
  destruct (Z.eqb_spec d 47).
  - inversion H as [? ? X|? ? X]; [destruct X|]. right. apply IH. exact X.
  - destruct (split r) as [|s t] eqn:E; [exfalso; exact (split_ne r E)|].
    inversion H as [? ? X|? ? X]; [|right; apply IH; right; exact X].
    destruct X as [X|X]; [left; exact X|right; apply IH; left; exact X].
Qed.

Lemma in_removelast {A} (x : A) l : In x (removelast l) -> In x l.
Proof.
  induction l as [|y l IH]; [intros []|]. destruct l as [|z l]; [intros []|].
  intros [X|X]; [left; exact X|right; apply IH; exact X].
Qed.

Lemma in_last (l : list str) d : l <> [] -> In (last l d) l.
Proof.
  induction l as [|y l IH]; [contradiction|]. intros _. destruct l as [|z l]; [left; reflexivity|].
  right. apply IH. discriminate.
Qed.

Lemma plain_expressible home p q : plain p -> pathname home p = Val q -> expressible q.
Proof.
  intros P E. destruct (parse_plain home p P) as (n & t & E' & F).
  destruct (namestring_pathname home p P) as (q' & E'' & S).
  rewrite E in E'. inversion E'; subst q. rewrite E in E''. inversion E''; subst q'. clear E' E''.
  destruct P as (NE & NC & NT).
  split; [reflexivity|]. split; [reflexivity|]. split; [reflexivity|]. split; [|split; [|split]].
  - exists (absolute p), (filter nonempty (removelast (split p))). split; [reflexivity|].
    apply Forall_forall. intros s I. apply filter_In in I. destruct I as [I Ne]. apply in_removelast in I.
    split; [destruct s; [discriminate|discriminate]|]. pose proof (split_pieces p) as SP. rewrite Forall_forall in SP.
    split; [apply SP; exact I|]. intros X. apply NC. apply split_in. apply Exists_exists. exists s. split; assumption.
  - exists (last_piece p). split; [exact F|]. split; [apply last_split_notin|].
    intros X. apply NC. apply split_in. apply Exists_exists. exists (last_piece p). split; [|exact X].
    apply in_last, split_ne.
  - intros B. rewrite B in S. cbn in S. inversion S as [S']. rewrite squeeze_written in S'.
    symmetry in S'. apply app_eq_nil in S'. destruct S' as [A W]. destruct p as [|c r]; [contradiction|].
    cbn [absolute] in A. destruct (Z.eqb_spec c 47) as [|N]; [discriminate|]. rewrite written_other in W by exact N. discriminate.
  - intros s S'. rewrite S in S'. inversion S'; subst s. intros [r R].
    destruct p as [|c p]; [contradiction|]. cbn [squeeze] in R. destruct (Z.eqb_spec c 47) as [->|N].
    + assert (A : absolute (squeeze (47 :: p)) = true) by (rewrite squeeze_absolute; reflexivity).
      cbn [squeeze Z.eqb Pos.eqb] in A. rewrite R in A. discriminate.
    + inversion R; subst. apply NT. exists p. reflexivity.
Qed.

Theorem pathname_stable home p q : plain p -> pathname home p = Val q ->
  exists s, namestring q = Val s /\ pathname home s = Val q.
Proof. intros P E. apply pathname_namestring. exact (plain_expressible home p q P E). Qed.

(** * The home directory *)

Lemma split_app_gen a b : split (a ++ 47 :: b) = split a ++ split b.
Proof.
  induction a as [|c a IH]; [reflexivity|]. cbn [app split]. destruct (Z.eqb_spec c 47); [rewrite IH; reflexivity|].
  rewrite IH. destruct (split a) as [|s t] eqn:E; [exfalso; exact (split_ne a E)|]. reflexivity.
Qed.

Lemma explode_ok home : explode_directory_names home = Some (rev (map Name (filter nonempty (split home)))).
Proof.
  unfold explode_directory_names. destruct (dir_loop_ok (length home + 1) [] home [] ltac:(lia)) as (q & E & D).
  cbn [app length] in D, E. rewrite D. rewrite app_nil_r. unfold sub_from.
  replace (skipn (length q) home) with (last (split home) []) by (rewrite E at 2; symmetry; apply skipn_len).
  f_equal. assert (X : filter nonempty (split home) = filter nonempty (removelast (split home) ++ [last (split home) []])).
  { f_equal. apply app_removelast_last, split_ne. }
  rewrite X. clear X.
  rewrite filter_app, map_app, rev_app_distr. cbn [filter]. destruct (last (split home) []) as [|c s]; [reflexivity|].
  cbn [length Nat.ltb Nat.leb nonempty map rev app]. reflexivity.
Qed.

Theorem home_pathname home r : starts 47 home -> ~ In 58 r ->
  exists q, pathname home (126 :: r) = Val q /\ namestring q = Val (squeeze (home ++ 47 :: r)).
Proof.
  intros [h H] NC. unfold pathname, parse_namestring. cbn [length Nat.eqb].
  assert (P : position COLON (126 :: r) 0 = None).
  { unfold position, COLON. cbn [skipn]. rewrite index_of_notin; [reflexivity|]. intros [X|X]; [discriminate|contradiction]. }
  rewrite P. cbn [snd fst host blank]. cbn [Nat.leb nth]. unfold SLASH at 1, TILDE. cbn [Z.eqb Pos.eqb].
  rewrite explode_ok. change (0 + 1)%nat with (length [126]). change (126 :: r) with ([126] ++ r).
  destruct (dir_loop_ok (S (length r) + 1) [126] r (rev (map Name (filter nonempty (split home))) ++ [Root]) ltac:(lia)) as (q & E & D).
  rewrite D. cbv zeta. rewrite !rev_app_distr, !rev_involutive. cbn [rev app].
  destruct (parse_file_ok None blank q (last (split r) [])
    ((Root :: map Name (filter nonempty (split home))) ++ map Name (filter nonempty (removelast (split r)))) eq_refl eq_refl)
    as (n & t & F & G).
  eexists. split; [rewrite <- E in F; exact F|].
  rewrite (namestring_ok _ true (filter nonempty (split home) ++ filter nonempty (removelast (split r))))
    by (cbn [directory]; rewrite map_app; reflexivity).
  cbn [host device name type or_empty app blank]. rewrite (file_parts_text _ _ _ G). f_equal.
  rewrite squeeze_written. replace (absolute (home ++ 47 :: r)) with true by (subst home; reflexivity). cbn [app]. f_equal.
  unfold written. rewrite split_app_gen, removelast_app, filter_app by apply split_ne.
  f_equal. assert (X : forall (l m : list str), m <> [] -> last (l ++ m) [] = last m []).
  { intros l m M. induction l as [|y l IH]; [reflexivity|]. cbn [app]. rewrite last_cons; [exact IH|].
    destruct l; [exact M|discriminate]. }
  symmetry. apply X, split_ne.
Qed.

(** * Merging *)

Lemma or_else_assoc {A} (a b c : option A) : or_else (or_else a b) c = or_else a (or_else b c).
Proof. destruct a; reflexivity. Qed.

Theorem merge_assoc a b c : merge (merge a b) c = merge a (merge b c).
Proof. unfold merge. cbn. rewrite !or_else_assoc. destruct (directory a); reflexivity. Qed.

Theorem merge_idem a : merge a a = a.
Proof.
  destruct a as [h d dir n t v]. unfold merge. cbn.
  destruct h, d, dir, n, t, v; reflexivity.
Qed.

Theorem merge_blank a : merge a blank = a /\ merge blank a = a.
Proof.
  destruct a as [h d dir n t v]. unfold merge. cbn. split; destruct h, d, dir, n, t, v; reflexivity.
Qed.

(** A file name merged with a directory *)
Theorem merge_file home f d : plain f -> ~ In 47 f -> plain (d ++ [47]) ->
  exists q, merge_pathnames home (Text f) (Text (d ++ [47])) = Val q /\ namestring q = Val (squeeze (d ++ [47]) ++ f).
Proof.
  intros Pf Nf Pd. unfold merge_pathnames, to_path.
  destruct (parse_plain home f Pf) as (n & t & Ef & Ff). destruct (parse_plain home _ Pd) as (n' & t' & Ed & Fd).
  rewrite Ef, Ed. cbn [bind]. eexists. split; [reflexivity|].
  assert (LP : last_piece (d ++ [47]) = []).
  { unfold last_piece. rewrite split_app_gen. cbn [split]. apply last_last'. }
  rewrite LP in Fd. assert (N' : n' = None /\ t' = None).
  { destruct Fd as [(A & _)|[(_ & _ & A & B)|(_ & a & b & B & _)]]; [discriminate|split; assumption|destruct a; discriminate]. }
  destruct N' as [-> ->]. unfold last_piece in Ff. rewrite split_notin in Ff by exact Nf. cbn [last] in Ff.
  assert (Df : directories f = []).
  { unfold directories. rewrite split_notin by exact Nf. cbn [removelast filter map]. rewrite app_nil_r.
    destruct f as [|c f]; [reflexivity|]. cbn [absolute]. destruct (Z.eqb_spec c 47) as [->|]; [exfalso; apply Nf; left; reflexivity|reflexivity]. }
  unfold merge. cbn [host device directory name type version]. rewrite Df.
  rewrite (namestring_ok _ (absolute (d ++ [47])) (filter nonempty (removelast (split (d ++ [47]))))) by reflexivity.
  cbn [host device name type or_empty app or_else]. f_equal.
  replace (or_else n None) with n by (destruct n; reflexivity). replace (or_else t None) with t by (destruct t; reflexivity).
  rewrite (file_parts_text _ _ _ Ff). rewrite squeeze_written. unfold written. unfold last_piece in LP. rewrite LP, app_nil_r.
  reflexivity.
Qed.

(** * Where it fails *)

(** "h:/a": the colon after the host is lost when the name is printed; "h:" is not accepted. *)
Lemma colon_refuted home : exists p q, pathname home p = Val q /\ namestring q = Val [104; 47; 97] /\ p = [104; 58; 47; 97].
Proof. eexists. eexists. split; [|split; [|reflexivity]]; [vm_compute; reflexivity|reflexivity]. Qed.

Lemma colon_error_refuted home : exists p, p <> [] /\ pathname home p = Error.
Proof. exists [104; 58]. split; [discriminate|reflexivity]. Qed.

(** Parsing "b/" into a pathname that was "f.l" keeps the file name. *)
Lemma reparse_refuted home : exists p q r, pathname home [102; 46; 108] = Val p /\
  parse_namestring home p [98; 47] = Val q /\ namestring q = Val r /\ r = [98; 47; 102; 46; 108].
Proof. eexists. eexists. eexists. split; [reflexivity|]. split; [vm_compute; reflexivity|]. split; reflexivity. Qed.

(** * Adding directories, joining names *)

Theorem add_directory_name p ds : expressible p ->
  exists d f, namestring p = Val (d ++ f) /\ ~ In 47 f /\ (d = [] \/ exists d', d = d' ++ [47]) /\
    namestring (add_directory p ds) = Val (d ++ concat (map (fun s => s ++ [47]) ds) ++ f).
Proof.
  intros (H & Dv & V & (ab & l & D & Fl) & (f & F & NS & NC) & NB & NT).
  exists ((if ab then [47] else []) ++ concat (map (fun s => s ++ [47]) l)), f.
  pose proof (namestring_ok p ab l D) as E. rewrite H, Dv in E. cbn [or_empty app] in E.
  rewrite (file_parts_text _ _ _ F) in E. split; [exact E|]. split; [exact NS|]. split.
  - destruct l as [|s l _] using rev_ind.
    + destruct ab; [right; exists []; reflexivity|left; reflexivity].
    + right. exists ((if ab then [47] else []) ++ concat (map (fun s => s ++ [47]) l) ++ s).
      rewrite map_app, concat_app. cbn [map concat]. rewrite app_nil_r, !app_assoc. reflexivity.
  - rewrite (namestring_ok (add_directory p ds) ab (l ++ ds)).
    + cbn [add_directory host device name type]. rewrite H, Dv, (file_parts_text _ _ _ F). cbn [or_empty app].
      rewrite map_app, concat_app, !app_assoc. reflexivity.
    + cbn [add_directory directory]. rewrite D, map_app, app_assoc. reflexivity.
Qed.

Definition names (xs : list designator) (ts : list str) : Prop := Forall2 (fun x t =>
  x = Text t \/ exists q, x = Path q /\ namestring q = Val t) xs ts.

Lemma concat_names_ok xs ts : names xs ts -> concat_names (map namestring_of xs) = Val (concat ts).
Proof.
  intros H. induction H as [|x t xs ts H _ IH]; [reflexivity|]. cbn [map concat_names concat].
  assert (E : namestring_of x = Val t) by (destruct H as [->|(q & -> & E)]; [reflexivity|exact E]).
  rewrite E. cbn [bind]. rewrite IH. reflexivity.
Qed.

Theorem concatenate_name home xs ts : names xs ts -> plain (concat ts) ->
  exists q, concatenate_pathnames home xs = Val q /\ namestring q = Val (squeeze (concat ts)).
Proof.
  intros H P. unfold concatenate_pathnames. destruct xs as [|x xs].
  - inversion H; subst. destruct P as [P _]. contradiction.
  - rewrite (concat_names_ok _ _ H). cbn [bind]. apply namestring_pathname. exact P.
Qed.

(** Components of the first argument win, those it lacks come from the second. *)
Theorem merge_components home f d q : merge_pathnames home (Text f) (Text d) = Val q ->
  exists pf pd, pathname home f = Val pf /\ pathname home d = Val pd /\
    (forall x, name pf = Some x -> name q = Some x) /\ (name pf = None -> name q = name pd) /\
    (forall x, type pf = Some x -> type q = Some x) /\ (type pf = None -> type q = type pd) /\
    (forall x, host pf = Some x -> host q = Some x) /\ (host pf = None -> host q = host pd) /\
    (directory pf <> [] -> directory q = directory pf) /\ (directory pf = [] -> directory q = directory pd).
Proof.
  unfold merge_pathnames, to_path. destruct (pathname home f) as [pf| |]; [|discriminate|discriminate].
  destruct (pathname home d) as [pd| |]; [|discriminate|discriminate]. cbn [bind]. intros E. inversion E; subst q; clear E.
  exists pf, pd. split; [reflexivity|]. split; [reflexivity|]. unfold merge. cbn [name type host directory].
  destruct (name pf), (type pf), (host pf), (directory pf); cbn [or_else];
    repeat (split; [first [intros x Hx; exact Hx|intros; discriminate|intros; reflexivity|intros; congruence]|]);
    first [intros; discriminate|intros; reflexivity|intros; congruence].
Qed.
