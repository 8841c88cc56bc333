(** Model of utils/CmdLineArgParser.cpp (class CmdLineArgParser).
    Not modelled: help texts, the name of the executable, printing.
    [atof] and [atoi] (C library) are parameters. *)
From Coq Require Import ZArith List Bool String Ascii.
From Verif Require Import Base Num.
Import ListNotations.
Open Scope Z_scope.

Section CmdLine.
Context {T : Type} {N : Num T}.
Variable atof : string -> T.
Variable atoi : string -> Z.

(** utils/CmdLineArgParser.h:90-93.  std::map as an association list with
    distinct keys. *)
Record parser := mkParser {
  p_double : list (string * T);
  p_int : list (string * Z);
  p_string : list (string * string);
  p_bool : list (string * bool) }.

(** std::map::find. *)
Fixpoint m_find {V} (m : list (string * V)) (k : string) : option V :=
  match m with
  | [] => None
  | (k', v) :: m' => if String.eqb k' k then Some v else m_find m' k
  end.

(** std::map::operator[] assignment. *)
Fixpoint m_set {V} (m : list (string * V)) (k : string) (v : V) : list (string * V) :=
  match m with
  | [] => [(k, v)]
  | (k', v') :: m' => if String.eqb k' k then (k', v) :: m' else (k', v') :: m_set m' k v
  end.

(** The tests find(arg) != end() of utils/CmdLineArgParser.cpp:79-84. *)
Definition m_mem {V} (m : list (string * V)) (k : string) : bool :=
  match m_find m k with Some _ => true | None => false end.

(** utils/CmdLineArgParser.cpp:26-64, the overloads of set. *)
Definition p_setDouble (p : parser) name v :=
  mkParser (m_set (p_double p) name v) (p_int p) (p_string p) (p_bool p).
Definition p_setInt (p : parser) name v :=
  mkParser (p_double p) (m_set (p_int p) name v) (p_string p) (p_bool p).
Definition p_setString (p : parser) name v :=
  mkParser (p_double p) (p_int p) (m_set (p_string p) name v) (p_bool p).
Definition p_setBool (p : parser) name v :=
  mkParser (p_double p) (p_int p) (p_string p) (m_set (p_bool p) name v).

(** utils/CmdLineArgParser.cpp:12-17, constructor. *)
Definition p_new : parser :=
  p_setBool (p_setBool (mkParser [] [] [] []) "-h" false) "--help" false.

(** isdigit of the C library in the "C" locale, called at utils/CmdLineArgParser.cpp:77.  Simplified: for a character above 127
    the argument is negative where char is signed, which the C standard leaves undefined; here the answer is no, as in glibc. *)
Definition is_digit (c : ascii) : bool :=
  let n := nat_of_ascii c in (48 <=? n)%nat && (n <=? 57)%nat.

(** utils/CmdLineArgParser.cpp:76-77, [isOptionName]. *)
Definition is_option_name (arg : string) : bool :=
  match arg with
  | String c0 (String c1 _) => Ascii.eqb c0 "-"%char && negb (is_digit c1)
  | _ => false
  end.

(** utils/CmdLineArgParser.cpp:79-83, [isValidOptName]. *)
Definition is_registered (p : parser) (arg : string) : bool :=
  m_mem (p_double p) arg || m_mem (p_int p) arg || m_mem (p_string p) arg || m_mem (p_bool p) arg.

(** utils/CmdLineArgParser.cpp:98-108 (also 117-127, 136-146): the scan of the
    arguments for one option; [isArgVal] and the current value are the state. *)
Fixpoint p_scan {V} (conv : string -> V) (key : string) (isArgVal : bool) (v : V)
  (args : list string) : V :=
  match args with
  | [] => v
  | a :: args' =>
      let v' := if isArgVal then conv a else v in
      p_scan conv key (String.eqb key a) v' args'
  end.

(** utils/CmdLineArgParser.cpp:152-158: one flip per occurrence. *)
Fixpoint p_flip (key : string) (v : bool) (args : list string) : bool :=
  match args with
  | [] => v
  | a :: args' => p_flip key (if String.eqb a key then negb v else v) args'
  end.

(** utils/CmdLineArgParser.cpp:66-162, parse; [args] is argv[1..argc-1]. *)
Definition p_parse (p : parser) (args : list string) : bool * parser :=
  if existsb (fun a => is_option_name a && negb (is_registered p a)) args
  then (false, p)
  else (true, mkParser
    (map (fun kv => (fst kv, p_scan atof (fst kv) false (snd kv) args)) (p_double p))
    (map (fun kv => (fst kv, p_scan atoi (fst kv) false (snd kv) args)) (p_int p))
    (map (fun kv => (fst kv, p_scan (fun s => s) (fst kv) false (snd kv) args)) (p_string p))
    (map (fun kv => (fst kv, p_flip (fst kv) (snd kv) args)) (p_bool p))).

(** utils/CmdLineArgParser.cpp:209-264, the scalar getters. *)
Definition p_getDouble (p : parser) name : T :=
  match m_find (p_double p) name with Some v => v | None => nopp nmax end.
Definition p_getInt (p : parser) name : Z :=
  match m_find (p_int p) name with Some v => v | None => - int_max end.
Definition p_getString (p : parser) name : string :=
  match m_find (p_string p) name with Some v => v | None => ""%string end.
Definition p_getBool (p : parser) name : bool :=
  match m_find (p_bool p) name with Some v => v | None => false end.

(** std::string::find(c, pos): position of the first [c] at or after [pos], if any
    (None stands for npos, which is larger than any size). *)
Fixpoint s_find (c : ascii) (s : string) (pos : nat) : option nat :=
  match s with
  | EmptyString => None
  | String a s' =>
      match pos with
      | O => if Ascii.eqb a c then Some O
             else match s_find c s' O with Some n => Some (S n) | None => None end
      | S pos' => match s_find c s' pos' with Some n => Some (S n) | None => None end
      end
  end.

(** utils/CmdLineArgParser.cpp:275-282 (also 296-303): the fields between commas.
    The loop pushes [substr(pos0, pos1 - pos0)] while a comma is found; the last
    field is the rest of the string.  [fuel] bounds the number of commas. *)
Fixpoint p_fields (fuel : nat) (s : string) (pos0 : nat) : list string * string :=
  match s_find ","%char s pos0 with
  | None => ([], substring pos0 (String.length s - pos0) s)
  | Some pos1 =>
      match fuel with
      | O => ([], EmptyString)
      | S fuel' =>
          let '(fs, l) := p_fields fuel' s (pos1 + 1) in
          (substring pos0 (pos1 - pos0) s :: fs, l)
      end
  end.

(** utils/CmdLineArgParser.cpp:266-285, get<std::vector<double>>. *)
Definition p_getVecDouble (p : parser) name : list T :=
  match m_find (p_string p) name with
  | None | Some EmptyString => []
  | Some s => let '(fs, l) := p_fields (S (String.length s)) s 0 in
              map atof fs ++ [atof l]
  end.

(** utils/CmdLineArgParser.cpp:287-306, get<std::vector<int>>: every field but the
    last goes through atoi, the last through atof and a conversion to int. *)
Definition p_getVecInt (p : parser) name : exec (list Z) :=
  match m_find (p_string p) name with
  | None | Some EmptyString => Ret []
  | Some s => let '(fs, l) := p_fields (S (String.length s)) s 0 in
              let! x := to_int (atof l) in
              Ret (map atoi fs ++ [x])
  end.

End CmdLine.

(** Concrete conversions for examples: [atoi] on an optional sign and digits, and
    [atof] on an optional sign, digits, an optional fraction and an optional
    unsigned exponent (no blanks, no hexadecimal); enough for the witnesses.
    Exact only while numerator and denominator are below 2^53. *)
Fixpoint digits_val (s : string) (acc : Z) : Z * string :=
  match s with
  | String c s' => if is_digit c then digits_val s' (acc * 10 + (Z.of_nat (nat_of_ascii c) - 48))
                   else (acc, s)
  | EmptyString => (acc, s)
  end.

(** A sign before the digits, for the instances of atoi and atof below. *)
Definition sign_of (s : string) : Z * string :=
  match s with
  | String "-"%char s' => (-1, s')
  | String "+"%char s' => (1, s')
  | _ => (1, s)
  end.

(** atoi (called at utils/CmdLineArgParser.cpp:120 and 299) on decimal literals without leading blanks and in the range of int. *)
Definition atoi_dec (s : string) : Z :=
  let '(sg, s1) := sign_of s in sg * fst (digits_val s1 0).

(** atof (called at utils/CmdLineArgParser.cpp:101, 278, 282, 303) on decimal literals without leading blanks, exponent, inf or nan. *)
Definition atof_dec {T} {N : Num T} (s : string) : T :=
  let '(sg, s1) := sign_of s in
  let '(n, s2) := digits_val s1 0 in
  let '(m, k, s3) :=
    match s2 with
    | String "."%char s' =>
        let '(m, s'') := digits_val s' n in
        (m, Z.of_nat (String.length s') - Z.of_nat (String.length s''), s'')
    | _ => (n, 0, s2)
    end in
  let e := match s3 with String "e"%char s' => fst (digits_val s' 0) | _ => 0 end in
  lit (sg * m * 10 ^ e) (10 ^ k).
