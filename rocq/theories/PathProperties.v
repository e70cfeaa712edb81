(** Property C71: pathnames. *)
From Verif Require Import Word StrModel PathModel PathProofs.

(** ** C71: the name of the pathname made from a string is that string, up to runs of slashes; the parts are the pieces
    between the slashes; a pathname is read back from its name.

    The full statement is false because of the colon (the host) and of the empty string.  [plain] strings have neither
    a colon nor a tilde in front; the tilde is the home directory. *)
Theorem C71_name_partial : forall home p, plain p ->
  exists q, pathname home p = Val q /\ namestring q = Val (squeeze p).
Proof. exact namestring_pathname. Qed.
Print Assumptions C71_name_partial.

Theorem C71_parts_partial : forall home p, plain p ->
  exists n t, pathname home p = Val (mkPath None None (directories p) n t None) /\ file_parts (last_piece p) n t.
Proof. exact parse_plain. Qed.
Print Assumptions C71_parts_partial.

(** [file_parts] determines name and type. *)
Theorem C71_parts_unique : forall f n t n' t', file_parts f n t -> file_parts f n' t' -> n = n' /\ t = t'.
Proof. exact file_parts_fun. Qed.
Print Assumptions C71_parts_unique.

Theorem C71_read_back_partial : forall home q, expressible q ->
  exists s, namestring q = Val s /\ pathname home s = Val q.
Proof. exact pathname_namestring. Qed.
Print Assumptions C71_read_back_partial.

(** Every pathname that comes from a plain string is one of those. *)
Theorem C71_parsed_expressible : forall home p q, plain p -> pathname home p = Val q -> expressible q.
Proof. exact plain_expressible. Qed.
Print Assumptions C71_parsed_expressible.

Theorem C71_home : forall home r, starts 47 home -> ~ In 58 r ->
  exists q, pathname home (126 :: r) = Val q /\ namestring q = Val (squeeze (home ++ 47 :: r)).
Proof. exact home_pathname. Qed.
Print Assumptions C71_home.

Theorem C71_merge_file : forall home f d, plain f -> ~ In 47 f -> plain (d ++ [47]) ->
  exists q, merge_pathnames home (Text f) (Text (d ++ [47])) = Val q /\ namestring q = Val (squeeze (d ++ [47]) ++ f).
Proof. exact merge_file. Qed.
Print Assumptions C71_merge_file.

Theorem C71_merge : forall a b c,
  merge (merge a b) c = merge a (merge b c) /\ merge a a = a /\ merge a blank = a /\ merge blank a = a.
Proof. intros a b c. split; [apply merge_assoc|]. split; [apply merge_idem|apply merge_blank]. Qed.
Print Assumptions C71_merge.

Theorem C71_merge_components : forall home f d q, merge_pathnames home (Text f) (Text d) = Val q ->
  exists pf pd, pathname home f = Val pf /\ pathname home d = Val pd /\
    (forall x, name pf = Some x -> name q = Some x) /\ (name pf = None -> name q = name pd) /\
    (forall x, type pf = Some x -> type q = Some x) /\ (type pf = None -> type q = type pd) /\
    (forall x, host pf = Some x -> host q = Some x) /\ (host pf = None -> host q = host pd) /\
    (directory pf <> [] -> directory q = directory pf) /\ (directory pf = [] -> directory q = directory pd).
Proof. exact merge_components. Qed.
Print Assumptions C71_merge_components.

(** The directory of the pathname gets longer, its file stays. *)
Theorem C71_add_directory : forall p ds, expressible p ->
  exists d f, namestring p = Val (d ++ f) /\ ~ In 47 f /\ (d = [] \/ exists d', d = d' ++ [47]) /\
    namestring (add_directory p ds) = Val (d ++ concat (map (fun s => s ++ [47]) ds) ++ f).
Proof. exact add_directory_name. Qed.
Print Assumptions C71_add_directory.

Theorem C71_concatenate_partial : forall home xs ts, names xs ts -> plain (concat ts) ->
  exists q, concatenate_pathnames home xs = Val q /\ namestring q = Val (squeeze (concat ts)).
Proof. exact concatenate_name. Qed.
Print Assumptions C71_concatenate_partial.

Theorem C71_colon_refuted : forall home, exists p q,
  pathname home p = Val q /\ namestring q = Val [104; 47; 97] /\ p = [104; 58; 47; 97].
Proof. exact colon_refuted. Qed.
Print Assumptions C71_colon_refuted.

Theorem C71_host_refuted : forall home, exists p, p <> [] /\ pathname home p = Error.
Proof. exact colon_error_refuted. Qed.
Print Assumptions C71_host_refuted.

Theorem C71_reparse_refuted : forall home, exists p q r, pathname home [102; 46; 108] = Val p /\
  parse_namestring home p [98; 47] = Val q /\ namestring q = Val r /\ r = [98; 47; 102; 46; 108].
Proof. exact reparse_refuted. Qed.
Print Assumptions C71_reparse_refuted.

(** "/a//b/.c.d" *)
Example C71_ex : let p := [47; 97; 47; 47; 98; 47; 46; 99; 46; 100] in
  plain p /\ pathname [] p = Val (mkPath None None [Root; Name [97]; Name [98]] (Some [46; 99]) (Some [100]) None) /\
  squeeze p = [47; 97; 47; 98; 47; 46; 99; 46; 100].
Proof.
  split; [|split; reflexivity]. split; [discriminate|]. split; [cbn [In]; lia|]. intros [r R]. discriminate.
Qed.

(** "~/x" with the home directory "/h" *)
Example C71_home_ex : bind (pathname [47; 104] [126; 47; 120]) namestring = Val [47; 104; 47; 120].
Proof. reflexivity. Qed.

(** ".." is a name, "x." has an empty type *)
Example C71_dots_ex : pathname [] [46; 46] = Val (mkPath None None [] (Some [46; 46]) None None) /\
  pathname [] [120; 46] = Val (mkPath None None [] (Some [120]) (Some []) None) /\
  expressible (mkPath None None [Root] (Some [120]) (Some []) None).
Proof.
  split; [reflexivity|]. split; [reflexivity|].
  apply (C71_parsed_expressible [] [47; 120; 46]); [|reflexivity].
  split; [discriminate|]. split; [cbn [In]; lia|]. intros [r R]. discriminate.
Qed.

(** "/x/y.l" with "b" added; "a/" joined with "/b.c" *)
Example C71_add_ex : (exists p, pathname [] [47; 120; 47; 121; 46; 108] = Val p /\ expressible p /\
    namestring (add_directory p [[98]]) = Val [47; 120; 47; 98; 47; 121; 46; 108]) /\
  names [Text [97; 47]; Text [47; 98; 46; 99]] [[97; 47]; [47; 98; 46; 99]] /\
  bind (concatenate_pathnames [] [Text [97; 47]; Text [47; 98; 46; 99]]) namestring = Val [97; 47; 98; 46; 99].
Proof.
  split.
  - eexists. split; [reflexivity|]. split; [|reflexivity].
    apply (C71_parsed_expressible [] [47; 120; 47; 121; 46; 108]); [|reflexivity].
    split; [discriminate|]. split; [cbn [In]; lia|]. intros [r R]. discriminate.
  - split; [|reflexivity]. constructor; [left; reflexivity|]. constructor; [left; reflexivity|constructor].
Qed.

(** "b.l" with the defaults "/a/c.d" *)
Example C71_merge_ex : exists q, merge_pathnames [] (Text [98; 46; 108]) (Text [47; 97; 47; 99; 46; 100]) = Val q /\
  namestring q = Val [47; 97; 47; 98; 46; 108].
Proof. eexists. split; reflexivity. Qed.
