(** Model of the command line, the amendments to the input document and the case name: src/input_proc.cpp.  Strings are lists of
    bytes as in StrModel; what is printed is left out. *)
From Coq Require Import List Bool Arith Ascii.
From Verif Require Import StrModel.
Import ListNotations.
Local Open Scope char_scope.
Local Open Scope nat_scope.
Local Open Scope list_scope.

(** std::string's operator==.  See src/input_proc.cpp:57-110. *)
Definition same (a b : str) : bool := if list_eq_dec ascii_dec a b then true else false.
(** std::string::find of one character, and rfind; [None] = npos.  See src/input_proc.cpp:129-144. *)
Fixpoint find_char (c : ascii) (s : str) : option nat :=
  match s with [] => None | x :: r => if ascii_dec x c then Some 0 else match find_char c r with Some n => Some (S n) | None => None end end.
(** As above, src/input_proc.cpp:129-144. *)
Fixpoint rfind_char (c : ascii) (s : str) : option nat :=
  match s with [] => None | x :: r => match rfind_char c r with Some n => Some (S n) | None => if ascii_dec x c then Some 0 else None end end.
(** substr(0, pos), npos taking all.  See src/input_proc.cpp:39-44. *)
Definition upto (o : option nat) (s : str) : str := match o with Some n => firstn n s | None => s end.

(** ** The document *)
(** An XML document as the XML library's default parsing leaves it: elements with attributes and children, and text.  See src/input_proc.cpp:235-269. *)
Inductive Xml := Elem (name : str) (attrs : list (str * str)) (kids : list Xml) | Pc (text : str).
(** xml_node::attribute(name): the first of that name; whether there is one, and set_value on it.  See src/input_proc.cpp:235-269. *)
Fixpoint get_attr (s : str) (l : list (str * str)) : option str := match l with [] => None | (n, v) :: r => if same n s then Some v else get_attr s r end.
(** As above, src/input_proc.cpp:235-269. *)
Fixpoint set_attr (s v : str) (l : list (str * str)) : list (str * str) := match l with [] => [] | (n, w) :: r => if same n s then (n, v) :: r else (n, w) :: set_attr s v r end.
(** As above, src/input_proc.cpp:235-269. *)
Definition named (s : str) (x : Xml) : bool := match x with Elem n _ _ => same n s | Pc _ => false end.
(** xml_node::child(name): the first of that name; and a change [f] made through the handle, [None] if [f] throws.  See src/input_proc.cpp:235-269. *)
Fixpoint on_child (s : str) (f : Xml -> option Xml) (l : list Xml) : option (list Xml) :=
  match l with
  | [] => None
  | x :: r => if named s x then match f x with Some y => Some (y :: r) | None => None end
              else match on_child s f r with Some r' => Some (x :: r') | None => None end
  end.
(** As above, src/input_proc.cpp:235-269. *)
Definition has_child (s : str) (l : list Xml) : bool := existsb (named s) l.
(** xml_node::text() and the assignment to it (input_proc.cpp:261-267): the first text child. *)
Fixpoint put_text (v : str) (l : list Xml) : option (list Xml) :=
  match l with
  | [] => None
  | Pc _ :: r => Some (Pc v :: r)
  | x :: r => match put_text v r with Some r' => Some (x :: r') | None => None end
  end.
(** As above, src/input_proc.cpp:261-267. *)
Definition set_text (v : str) (x : Xml) : option Xml := match x with Elem n a k => match put_text v k with Some k' => Some (Elem n a k') | None => None end | Pc _ => None end.

(** input_proc.cpp:222-233: the path in components; [fuel] bounds the rounds. *)
Fixpoint path_loop (fuel : nat) (path : str) : list str :=
  match fuel with
  | O => []
  | S k => let pos := find_char "/" path in
           upto pos path :: match pos with None => [] | Some n => path_loop k (skipn (n + 1) path) end
  end.
(** As above, src/input_proc.cpp:222-233. *)
Definition path_vec (path : str) : list str := path_loop (S (length path)) path.
(** input_proc.cpp:244-267, the last component; [None] = exception. *)
Definition amend_last (s v : str) (x : Xml) : option Xml :=
  match x with
  | Pc _ => None
  | Elem n a k =>
      let has_attribute := match get_attr s a with Some _ => true | None => false end in
      if negb (xorb has_attribute (has_child s k)) then None
      else if has_attribute then Some (Elem n (set_attr s v a) k)
      else match on_child s (set_text v) k with Some k' => Some (Elem n a k') | None => None end
  end.
(** input_proc.cpp:235-269; [None] = exception. *)
Fixpoint amend (comps : list str) (v : str) (x : Xml) : option Xml :=
  match comps with
  | [] => None
  | [s] => amend_last s v x
  | s :: r => match x with
              | Elem n a k => match on_child s (amend r v) k with Some k' => Some (Elem n a k') | None => None end
              | Pc _ => None
              end
  end.
(** input_proc.cpp:129-144: one replacement from the command line. *)
Definition replace_one (rep : str) (doc : Xml) : option Xml :=
  match find_char "=" rep, rfind_char "=" rep with
  | Some loc, Some rloc => if loc =? rloc then amend (path_vec (firstn loc rep)) (skipn (loc + 1) rep) doc else None
  | _, _ => None
  end.
(** input_proc.cpp:127-145: in the order of the command line. *)
Fixpoint replace_all (reps : list str) (doc : Xml) : option Xml :=
  match reps with [] => Some doc | r :: rs => match replace_one r doc with Some d => replace_all rs d | None => None end end.

(** ** The command line *)
Definition dash_a : str := ["-"; "a"].
(** As above, src/input_proc.cpp:57-110. *)
Definition dashed (s : str) : bool := match s with c :: _ => if ascii_dec c "-" then true else false | [] => false end.
(** input_proc.cpp:57-110 without the first argument; [None] = the usage message and exit.  Once good_cmd is false it stays so. *)
Fixpoint scan_args (args : list str) (file : str) (reps : list str) (good : bool) : option (str * list str) :=
  match args with
  | [] => if good && negb (same file []) then Some (file, reps) else None
  | arg :: r =>
      if same arg dash_a then
        match r with
        | [] => None
        | x :: r' => if dashed x then None else if good then scan_args r' file (reps ++ [x]) good else None
        end
      else if same file [] then scan_args r arg reps good
      else scan_args r file reps false
  end.
(** As above, src/input_proc.cpp:57-110. *)
Definition command_line (args : list str) : option (str * list str) := scan_args (tl args) [] [] true.

(** ** The case name *)
(** input_proc.cpp:39-44 strip_extension. *)
Definition strip_extension (s : str) : str := upto (rfind_char "." s) s.
(** "case_name".  See src/input_proc.cpp:51-162. *)
Definition case_tag : str := ["c"; "a"; "s"; "e"; "_"; "n"; "a"; "m"; "e"].
(** xml_node::child_value(): the first text child, or nothing.  See src/input_proc.cpp:51-162. *)
Fixpoint first_text (l : list Xml) : str := match l with [] => [] | Pc t :: _ => t | _ :: r => first_text r end.
(** As above, src/input_proc.cpp:51-162. *)
Fixpoint get_child (s : str) (l : list Xml) : option Xml := match l with [] => None | x :: r => if named s x then Some x else get_child s r end.
(** What the constructor of the input processor gives.  See src/input_proc.cpp:51-162. *)
Inductive IOut := IExit | IThrow | IOk (doc : Xml) (case : str).
(** input_proc.cpp:51-162; [load] stands for the XML parser, [None] = parse error. *)
Definition input_processor (args : list str) (load : str -> option Xml) : IOut :=
  match command_line args with
  | None => IExit
  | Some (file, reps) =>
      match load file with
      | None => IThrow
      | Some doc =>
          match replace_all reps doc with
          | None => IThrow
          | Some doc' =>
              match get_child case_tag (match doc' with Elem _ _ k => k | Pc _ => [] end) with
              | Some (Elem _ _ k) => if same (first_text k) [] then IThrow else IOk doc' (first_text k)
              | _ => IOk doc' (strip_extension file)
              end
          end
      end
  end.
