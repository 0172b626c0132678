(* Model of IoStream.hpp for Char = char. An input stream is the list of the characters not yet read and the two error bits;
   reading from the medium never fails (badbit stays clear) and no exception mask is set. Output is the list of the
   characters written. *)
From Coq Require Import ZArith List Ascii Bool.
Import ListNotations.
Local Open Scope char_scope.

Definition text := list ascii.
Record stream := Stream { rest : text; eofbit : bool; failbit : bool }.
Definition open (t : text) : stream := Stream t false false.
Definition good (s : stream) : bool := negb (eofbit s || failbit s).
Definition set_fail (s : stream) : stream := Stream (rest s) (eofbit s) true.

(* exceptions *)
Inductive exn := Runtime_error | Invalid_argument.
(* result of a stream function; [Exhausted] is the model's fuel running out, which never happens (C70_terminates) *)
Inductive outcome (A : Type) := Ok (a : A) (s : stream) | Throw (e : exn) (s : stream) | Exhausted.
Arguments Ok {A}. Arguments Throw {A}. Arguments Exhausted {A}.

(* std::isspace in the "C" locale *)
Definition space (c : ascii) : bool := let n := nat_of_ascii c in ((9 <=? n) && (n <=? 13) || (n =? 32))%nat.
(* std::basic_istream::peek, get. None is EOF; converted to char it is -1, which is neither white space nor one
   of the characters compared with *)
Definition peek (s : stream) : option ascii * stream :=
  if good s then match rest s with [] => (None, Stream [] true (failbit s)) | c :: _ => (Some c, s) end
  else (None, set_fail s).
Definition get (s : stream) : option ascii * stream :=
  if good s then match rest s with [] => (None, Stream [] true true) | c :: r => (Some c, Stream r (eofbit s) (failbit s)) end
  else (None, set_fail s).
Definition is_char (c : option ascii) (d : ascii) : bool := match c with Some e => (e =? d)%char | None => false end.
Definition is_space (c : option ascii) : bool := match c with Some e => space e | None => false end.

(* the formatted extraction [is >> value] of a number: white space is skipped; at the end of the stream, or if the stream
   is not good, the value keeps its contents [old]; otherwise the conversion [num] of std::num_get reads the longest text that
   can start a number: it gives the value (0 on error), the text left over and whether it succeeded; eofbit is set if
   the end was reached *)
Fixpoint skip_space (t : text) : text := match t with c :: r => if space c then skip_space r else t | [] => [] end.
Definition nil {A} (l : list A) : bool := match l with [] => true | _ => false end.
Definition extract {T} (num : text -> T * text * bool) (old : T) (s : stream) : T * stream :=
  if good s then
    match skip_space (rest s) with
    | [] => (old, Stream [] true true)
    | r => let '(v, r', ok) := num r in (v, Stream r' (nil r') (negb ok))
    end
  else (old, set_fail s).

(* IoStream.hpp:23-36 ReadWhileSpace *)
Fixpoint read_while_space (fuel : nat) (s : stream) : outcome (option ascii) :=
  match fuel with
  | O => Exhausted
  | S fuel =>
    if negb (good s) then Throw Runtime_error s
    else let '(c, s) := peek s in
         if is_space c then let '(_, s) := get s in read_while_space fuel s else Ok c s
  end.

(* [size_t] is unsigned 64 bit *)
Definition wrap (n : Z) : Z := (n mod 2 ^ 64)%Z.
Definition next_depth (c : ascii) (depth : Z) : Z :=
  if (c =? "[")%char then wrap (depth + 1) else if (c =? "]")%char then wrap (depth - 1) else depth.

(* IoStream.hpp:39-57 ReadArray: the do-while loop *)
Fixpoint read_array_loop (fuel : nat) (depth : Z) (str : text) (s : stream) : outcome text :=
  match fuel with
  | O => Exhausted
  | S fuel =>
    let '(c, s) := get s in
    if negb (good s) then Throw Invalid_argument s
    else
      let c := match c with Some c => c | None => "255" end in
      let depth := next_depth c depth in
      let str := str ++ [c] in
      if (0 <? depth)%Z then read_array_loop fuel depth str s else Ok str s
  end.
Definition read_array (s : stream) : outcome text := read_array_loop (S (length (rest s))) 0 [] s.

(* std::basic_string_view::substr *)
Definition substr (str : text) (pos n : nat) : text := firstn n (skipn pos str).
(* IoStream.hpp:60-79 SplitArray: the loop over the indices. [prev] is an int in the code; texts of more than 2^31
   characters are not modelled *)
Definition split_step (str : text) (sep : ascii) (state : nat * Z * list text) (i : nat) : nat * Z * list text :=
  let '(prev, depth, substrings) := state in
  let c := nth i str "000" in
  if (c =? "[")%char then (prev, wrap (depth + 1), substrings)
  else if (c =? "]")%char then (prev, wrap (depth - 1), substrings)
  else if ((depth =? 0)%Z && (c =? sep)%char) then (i + 1, depth, substrings ++ [substr str prev (i - prev)])%nat
  else state.
Definition split_array (str : text) (sep : ascii) : list text :=
  let '(prev, _, substrings) := fold_left (split_step str sep) (seq 0 (length str)) (0%nat, 0%Z, []) in
  substrings ++ [substr str prev (length str)].

(* IoStream.hpp:82-100 PrintElement and 103-126 ParseElement of a real or integral element: [os << value], [is >> value];
   [show] is the formatting of numbers. Nothing throws. *)
Definition parse_real {T} (num : text -> T * text * bool) (old : T) (s : stream) : outcome T :=
  let '(v, s) := extract num old s in Ok v s.
(* the same of a complex element; [zero]: T(0), [is_zero]: comparison with it *)
Definition print_complex {T} (show : T -> text) (is_zero : T -> bool) (z : T * T) : text :=
  show (fst z) ++ (if is_zero (snd z) then [] else [" "; "+"; " "] ++ show (snd z) ++ ["j"]).
Definition parse_complex {T} (num : text -> T * text * bool) (zero : T) (old : T * T) (s : stream) : outcome (T * T) :=
  let '(re, s) := extract num zero s in
  match read_while_space (S (length (rest s))) s with
  | Ok next s =>
    if is_char next "+" then
      let '(_, s) := get s in
      let '(im, s) := extract num zero s in
      Ok (re, im) s
    else Ok (re, zero) s
  | Throw e s => Throw e s
  | Exhausted => Exhausted
  end.

(* IoStream.hpp:129-138 PrintArray *)
Fixpoint print_elements {T} (print : T -> text) (array : list T) : text :=
  match array with
  | [] => []
  | [x] => print x
  | x :: l => print x ++ [","; " "] ++ print_elements print l
  end.
Definition print_array {T} (print : T -> text) (array : list T) : text :=
  ["["] ++ print_elements print array ++ ["]"].

(* IoStream.hpp:141-160 ParseArray. [parse old s] is ParseElement; [olds]: the contents of the array before the call, which
   is the default initialised (arbitrary) object. Each element has its own stream, whose state is dropped. *)
Fixpoint parse_elements {T} (parse : T -> stream -> outcome T) (olds : list T) (elements : list text) (s : stream) : outcome (list T) :=
  match olds, elements with
  | old :: olds, e :: elements =>
    match parse old (open e) with
    | Ok x _ =>
      match parse_elements parse olds elements s with
      | Ok l s => Ok (x :: l) s
      | r => r
      end
    | Throw ex _ => Throw ex s
    | Exhausted => Exhausted
    end
  | _, _ => Ok [] s
  end.
Definition parse_array {T} (parse : T -> stream -> outcome T) (olds : list T) (s : stream) : outcome (list T) :=
  match read_while_space (S (length (rest s))) s with
  | Ok next s =>
    if negb (is_char next "[") then Throw Invalid_argument s
    else
      match read_array s with
      | Ok str s =>
        let elements := split_array (substr str 1 (length str - 2)) "," in
        if negb (length elements =? length olds)%nat then Throw Invalid_argument s
        else parse_elements parse olds elements s
      | Throw e s => Throw e s
      | Exhausted => Exhausted
      end
  | Throw e s => Throw e s
  | Exhausted => Exhausted
  end.

(* IoStream.hpp:165-171, 198-205: operators << and >> of vectors (the list of the logical elements), real elements *)
Definition print_vector {T} (show : T -> text) (v : list T) : text := print_array show v.
Definition parse_vector {T} (num : text -> T * text * bool) : list T -> stream -> outcome (list T) := parse_array (parse_real num).
(* complex elements *)
Definition print_cvector {T} (show : T -> text) (is_zero : T -> bool) (v : list (T * T)) : text := print_array (print_complex show is_zero) v.
Definition parse_cvector {T} (num : text -> T * text * bool) (zero : T) : list (T * T) -> stream -> outcome (list (T * T)) :=
  parse_array (parse_complex num zero).
(* IoStream.hpp:174-183, 208-217: matrices, as the list of the rows; the row and column stores are those of M_Mat.v *)
Definition print_matrix {T} (show : T -> text) (m : list (list T)) : text := print_array (print_vector show) m.
Definition parse_matrix {T} (num : text -> T * text * bool) : list (list T) -> stream -> outcome (list (list T)) :=
  parse_array (parse_vector num).
Definition print_cmatrix {T} (show : T -> text) (is_zero : T -> bool) (m : list (list (T * T))) : text := print_array (print_cvector show is_zero) m.
Definition parse_cmatrix {T} (num : text -> T * text * bool) (zero : T) : list (list (T * T)) -> stream -> outcome (list (list (T * T))) :=
  parse_array (parse_cvector num zero).

(* IoStream.hpp:186-195 operator << of quaternions, given Rad2Deg(Angle(q)) and Axis(q) *)
Definition print_angle_axis {T} (show : T -> text) (deg : T) (axis : list T) : text :=
  ["["] ++ show deg ++ [" "; "d"; "e"; "g"; " "; "@"; " "] ++ print_vector show axis ++ ["]"].
(* IoStream.hpp:220-239 operator >> of quaternions, up to the angle and the axis. The two parts are read by
   one string stream: str() replaces the text and leaves the error bits. *)
Definition parse_angle_axis {T} (num : text -> T * text * bool) (old : T) (olds : list T) (s : stream) : outcome (T * list T) :=
  match read_array s with
  | Ok str s =>
    match split_array (substr str 1 (length str - 2)) "@" with
    | [e0; e1] =>
      let '(angle, ss) := extract num old (open e0) in
      match parse_vector num olds (Stream e1 (eofbit ss) (failbit ss)) with
      | Ok axis _ => Ok (angle, axis) s
      | Throw e _ => Throw e s
      | Exhausted => Exhausted
      end
    | _ => Throw Invalid_argument s
    end
  | Throw e s => Throw e s
  | Exhausted => Exhausted
  end.
