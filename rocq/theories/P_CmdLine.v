(** Property theorems C49-C53: command line parser. *)
From Coq Require Import ZArith List String Ascii Lia Floats.SpecFloat.
From Verif Require Import Base Num NumF M_CmdLine L_CmdLine.
Import ListNotations.
Open Scope string_scope.
Open Scope Z_scope.

(** A parser with a double, an integer, a string and a boolean option. *)
Definition ex_parser : parser (T := spec_float) :=
  p_setBool (p_setString (p_setInt (p_setDouble p_new "-x" (F_ofZ 7)) "-n" 3) "-s" "abc") "-v" false.

(** C49. For any conversion functions: parse fails exactly when some argument
    looks like an option (a dash and a non-digit) but is not registered, and then
    no option has changed. *)
Theorem C49_parse_rejects_unknown : forall (T : Type) (atof : string -> T) atoi (p : parser) args,
  (fst (p_parse atof atoi p args) = false <->
   exists a, In a args /\ looks_like_option a /\ ~ registered p a) /\
  (fst (p_parse atof atoi p args) = false -> snd (p_parse atof atoi p args) = p).
Proof. exact @parse_rejects. Qed.
Print Assumptions C49_parse_rejects_unknown.

Example C49_nonvacuous :
  fst (p_parse atof_dec atoi_dec ex_parser ["-n"; "5"; "-q"]) = false /\
  fst (p_parse atof_dec atoi_dec ex_parser ["-n"; "-5"; "-v"]) = true.
Proof. split; vm_compute; reflexivity. Qed.

(** C50. After a successful parse a number or string option has the value after its
    last occurrence that is followed by an argument, and its default if there is no
    such occurrence; these two cases are exhaustive. *)
Theorem C50_last_occurrence_wins : forall (T : Type) (N : Num T) (atof : string -> T) atoi (p : parser) args p',
  p_parse atof atoi p args = (true, p') ->
  forall name,
  ((exists pre v post, args = (pre ++ name :: v :: post)%list /\ ~ In name (removelast (v :: post))) \/
    ~ In name (removelast args)) /\
  (forall d, m_find (p_double p) name = Some d ->
     (forall pre v post, args = (pre ++ name :: v :: post)%list -> ~ In name (removelast (v :: post)) ->
        p_getDouble p' name = atof v) /\
     (~ In name (removelast args) -> p_getDouble p' name = d)) /\
  (forall d, m_find (p_int p) name = Some d ->
     (forall pre v post, args = (pre ++ name :: v :: post)%list -> ~ In name (removelast (v :: post)) ->
        p_getInt p' name = atoi v) /\
     (~ In name (removelast args) -> p_getInt p' name = d)) /\
  (forall d, m_find (p_string p) name = Some d ->
     (forall pre v post, args = (pre ++ name :: v :: post)%list -> ~ In name (removelast (v :: post)) ->
        p_getString p' name = v) /\
     (~ In name (removelast args) -> p_getString p' name = d)).
Proof.
  intros T N atof atoi p args p' H name. split; [exact (last_value_exhaustive atof atoi name args)|].
  destruct (parse_last_wins atof atoi p args p' H name) as (H1 & H2 & H3 & _).
  split; [exact H1|split; [exact H2|exact H3]].
Qed.
Print Assumptions C50_last_occurrence_wins.

Example C50_nonvacuous :
  exists p', p_parse atof_dec atoi_dec ex_parser ["-n"; "5"; "-s"; "u,v"; "-n"; "-8"; "-x"] = (true, p') /\
    p_getInt p' "-n" = -8 /\ p_getString p' "-s" = "u,v" /\ p_getDouble p' "-x" = F_ofZ 7.
Proof. eexists. split; [vm_compute; reflexivity|]. repeat split; vm_compute; reflexivity. Qed.

(** C51. A boolean option flips once per occurrence. *)
Theorem C51_bool_flips : forall (T : Type) (atof : string -> T) atoi (p : parser) args p',
  p_parse atof atoi p args = (true, p') ->
  forall name d, m_find (p_bool p) name = Some d ->
  p_getBool p' name = xorb d (Nat.odd (count_occ string_dec args name)).
Proof.
  intros T atof atoi p args p' H name d Hd. exact (parse_bool_flips atof atoi p args p' H name d Hd).
Qed.
Print Assumptions C51_bool_flips.

Example C51_nonvacuous :
  exists p', p_parse atof_dec atoi_dec ex_parser ["-v"; "1"; "-v"; "-v"] = (true, p') /\
    p_getBool p' "-v" = true.
Proof. eexists. split; [vm_compute; reflexivity|]. vm_compute; reflexivity. Qed.

(** C52 is false: the literal -.5 is taken for an unknown option, whatever is
    registered (unless an option has that very name), and the call fails. *)
Theorem C52_negative_fraction_refuted : forall (T : Type) (atof : string -> T) atoi (p : parser) pre post opt,
  ~ registered p "-.5" ->
  p_parse atof atoi p (pre ++ opt :: "-.5" :: post) = (false, p).
Proof. exact @parse_negative_fraction. Qed.
Print Assumptions C52_negative_fraction_refuted.

Example C52_refuted_nonvacuous : ~ registered ex_parser "-.5" /\ registered ex_parser "-x".
Proof.
  split.
  - intros [[v H]|[[v H]|[[v H]|[v H]]]]; discriminate.
  - left. eexists. reflexivity.
Qed.

(** C52, what holds: a literal that does not start with a dash, or whose dash is
    followed by a digit, never makes the call fail and is the value of the option. *)
Theorem C52_numeric_values_partial : forall (T : Type) (N : Num T) (atof : string -> T) atoi (p : parser) opt v d,
  m_find (p_double p) opt = Some d ->
  (forall rest, v <> String "-" rest) \/
    (exists c rest, v = String "-" (String c rest) /\ (48 <= nat_of_ascii c <= 57)%nat) ->
  exists p', p_parse atof atoi p [opt; v] = (true, p') /\ p_getDouble p' opt = atof v.
Proof. intros T N atof atoi. exact (parse_number_ok atof atoi N). Qed.
Print Assumptions C52_numeric_values_partial.

Example C52_nonvacuous :
  exists p', p_parse atof_dec atoi_dec ex_parser ["-x"; "-0.5"] = (true, p') /\
    p_getDouble p' "-x" = SFopp (lit 1 2).
Proof. eexists. split; [vm_compute; reflexivity|]. vm_compute; reflexivity. Qed.

(** C53, vectors of doubles: the fields (no commas inside) joined with commas give
    back the conversion of every field. *)
Theorem C53_double_vector_fields : forall (T : Type) (atof : string -> T) (p : parser) name fields,
  fields <> [] -> Forall no_comma fields -> String.concat "," fields <> "" ->
  m_find (p_string p) name = Some (String.concat "," fields) ->
  p_getVecDouble atof p name = map atof fields.
Proof. intros T atof. exact (vec_double_fields atof). Qed.
Print Assumptions C53_double_vector_fields.

Example C53_nonvacuous :
  p_getVecDouble atof_dec (p_setString (p_new (T := spec_float)) "-d" "1.5,,-2,") "-d" =
    [lit 3 2; lit 0 1; lit (-2) 1; lit 0 1].
Proof. vm_compute. reflexivity. Qed.

(** C53 is false for vectors of integers: the last field is converted as a floating
    point number.  With "1e2,1e2" the elements are 1 and 100. *)
Theorem C53_int_vector_refuted : exists (p : parser (T := spec_float)) name fields,
  fields <> [] /\ m_find (p_string p) name = Some (String.concat "," fields) /\
  p_getVecInt atof_dec atoi_dec p name = Ret [1; 100] /\
  map atoi_dec fields = [1; 1].
Proof.
  exists (p_setString p_new "-i" "1e2,1e2"), "-i", ["1e2"; "1e2"].
  split; [discriminate|]. split; [vm_compute; reflexivity|]. split; vm_compute; reflexivity.
Qed.
Print Assumptions C53_int_vector_refuted.

(** C53 for integers, what holds: when the last field means the same number for
    atof and atoi (plain decimal integers) every field is converted. *)
Theorem C53_int_vector_partial : forall (T : Type) (N : Num T) (atof : string -> T) atoi (p : parser) name fields,
  fields <> [] -> Forall no_comma fields -> String.concat "," fields <> "" ->
  m_find (p_string p) name = Some (String.concat "," fields) ->
  to_int (atof (last fields "")) = Ret (atoi (last fields "")) ->
  p_getVecInt atof atoi p name = Ret (map atoi fields).
Proof. exact @vec_int_fields. Qed.
Print Assumptions C53_int_vector_partial.

Example C53_int_nonvacuous :
  p_getVecInt atof_dec atoi_dec (p_setString (p_new (T := spec_float)) "-i" "10,-4,7") "-i" = Ret [10; -4; 7].
Proof. vm_compute. reflexivity. Qed.
