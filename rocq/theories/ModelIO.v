(** * Model of file comparison, the table logger and the crystal-data reader.
    source/utilities.cc:196-400, source/crystal_data.cc:70-208. *)
From Coq Require Import ZArith String Ascii.
From Flocq Require Import Core.
From Verif Require Import Num.
Open Scope R_scope.

(** A file system: contents of the readable files.  Files do not change during a call. *)
(** The files opened in source/utilities.cc:196-216 and source/crystal_data.cc:70-88. *)
Definition files := string -> option string.

(** std::equal(first1, last1, first2) on istreambuf_iterators: reading the second file
    beyond its end is outside the contract. *)
(** source/utilities.cc:222-225. *)
Fixpoint std_equal (a b : string) : result bool :=
  match a, b with
  | EmptyString, _ => Ok true
  | String x a', String y b' => if Ascii.eqb x y then std_equal a' b' else Ok false
  | String _ _, EmptyString => UB
  end.
(** utilities.cc:196-227, files_are_identical. *)
Definition files_are_identical (fs : files) (first second : string) : result bool :=
  match fs first, fs second with
  | Some a, Some b =>
      if Nat.eqb (String.length a) (String.length b) then std_equal a b else Ok false
  | _, _ => Ok false
  end.

(** ** Logger: utilities.h:114-149 *)
Inductive format := Integer | Decimal | Scientific.
(** [data_map] and [keys_order]. *)
(** include/gCP/utilities.h:114-149, data members. *)
Record logger := mk_logger {
  data_map : string -> option (R * format);
  keys_order : list string
}.
(** source/utilities.cc:229-237, constructor. *)
Definition new_logger : logger := mk_logger (fun _ => None) [].
(** std::map assignment in source/utilities.cc:239-270. *)
Definition set_entry (m : string -> option (R * format)) (k : string) (v : R * format) :=
  fun k' => if String.eqb k' k then Some v else m k'.
(** utilities.cc:239-252, declare_column: throws iff the key is already in the map. *)
Definition declare_column (l : logger) (k : string) (f : format) : result logger :=
  match data_map l k with
  | Some _ => Throw
  | None => Ok (mk_logger (set_entry (data_map l) k (0, f)) (keys_order l ++ [k]))
  end.
(** utilities.cc:256-262, update_value: operator[] inserts a missing key, value-initialised
    (0.0, Integer).  AssertIsFinite is debug-only and values are real numbers here. *)
Definition update_value (l : logger) (k : string) (v : R) : logger :=
  let f := match data_map l k with Some (_, f) => f | None => Integer end in
  mk_logger (set_entry (data_map l) k (v, f)) (keys_order l).
(** One printed cell: the key (for its width), and the number as it is formatted:
    (unsigned int)value for Integer - undefined outside (-1, 2^32) - the value otherwise. *)
Inductive cell := IntCell (key : string) (z : Z) | DecCell (key : string) (v : R) | SciCell (key : string) (v : R).
Definition print_cell (l : logger) (k : string) : result cell :=
  match data_map l k with
  | Some (v, Integer) =>
      if andb (Rltb (-1) v) (Rltb v (2 ^ 32)) then Ok (IntCell k (Ztrunc v)) else UB
  | Some (v, Decimal) => Ok (DecCell k v)
  | Some (v, Scientific) => Ok (SciCell k v)
  | None => UB     (* unreachable: keys_order only holds keys of the map *)
  end.
Fixpoint print_row (l : logger) (ks : list string) : result (list cell) :=
  match ks with
  | [] => Ok []
  | k :: ks' => rbind (print_cell l k) (fun c => rbind (print_row l ks') (fun r => Ok (c :: r)))
  end.
(** utilities.cc:266-302 and 332-368, log_to_file and log_values_to_terminal (which differ in
    the precision only; spacing is not modelled). *)
Definition log_row (l : logger) : result (list cell) := print_row l (keys_order l).
(** utilities.cc:306-328, log_headers_to_terminal, and 384-396, add_break. *)
Definition log_headers (l : logger) : list string := keys_order l.
(** A use of the logger. *)
(** include/gCP/utilities.h:114-149, public interface. *)
Inductive log_op := Declare (k : string) (f : format) | Update (k : string) (v : R).
(** A caller of source/utilities.cc:239-270. *)
Fixpoint run_log (l : logger) (os : list log_op) : result logger :=
  match os with
  | [] => Ok l
  | Declare k f :: os' => rbind (declare_column l k f) (fun l' => run_log l' os')
  | Update k v :: os' => run_log (update_value l k v) os'
  end.

(** ** Reader: crystal_data.cc:70-208 *)
(** The sequence of strings delivered by repeated std::getline(stream, s, d): [cur] holds the
    characters extracted since the last delimiter. *)
(** std::getline as used in source/crystal_data.cc:89 and 113. *)
Fixpoint getlines_aux (d : ascii) (s cur : string) : list string :=
  match s with
  | EmptyString => match cur with EmptyString => [] | _ => [cur] end
  | String c s' => if Ascii.eqb c d then cur :: getlines_aux d s' EmptyString
                   else getlines_aux d s' (cur ++ String c EmptyString)
  end.
(** The loops source/crystal_data.cc:89 and 113. *)
Definition getlines (d : ascii) (s : string) : list string := getlines_aux d s EmptyString.
(** source/crystal_data.cc:89. *)
Definition newline : ascii := "010"%char.
(** source/crystal_data.cc:113-115. *)
Definition comma : ascii := ","%char.

(** crystal_data.cc:91-103: a line consisting of blanks only. *)
Fixpoint blank (s : string) : bool :=
  match s with
  | EmptyString => true
  | String c s' => andb (Ascii.eqb c " ") (blank s')
  end.
(** crystal_data.cc:107-122: the components of one line.  [stod] is std::stod (None: it
    throws).  Beyond [dim] components the tensor is written out of range: AssertIndexRange is
    active in debug builds only. *)
Fixpoint read_components (stod : string -> option R) (dim : nat) (ps : list string) (acc : list R)
  : result (list R) :=
  match ps with
  | [] => Ok acc
  | p :: ps' =>
      match stod p with
      | None => Throw
      | Some r => if Nat.ltb (length acc) dim then read_components stod dim ps' (acc ++ [r]) else UB
      end
  end.
(** crystal_data.cc:124-142: number of components required. *)
Definition required_components (dim : nat) (euler : bool) : nat :=
  if andb euler (Nat.eqb dim 2) then 1 else dim.
Definition read_line (stod : string -> option R) (dim : nat) (euler : bool) (line : string)
  : result (list R) :=
  rbind (read_components stod dim (getlines comma line) []) (fun v =>
  if Nat.eqb (length v) (required_components dim euler) then Ok v else Throw).
(** crystal_data.cc:81-146: the lambda read_and_store; components not read are zero in the
    tensor, the list holds those that were read. *)
Fixpoint read_lines (stod : string -> option R) (dim : nat) (euler : bool) (ls : list string)
  (acc : list (list R)) : result (list (list R)) :=
  match ls with
  | [] => Ok acc
  | l :: ls' =>
      if blank l then Ok acc
      else rbind (read_line stod dim euler l) (fun v => read_lines stod dim euler ls' (acc ++ [v]))
  end.
Definition read_and_store (stod : string -> option R) (dim : nat) (euler : bool) (content : string)
  (acc : list (list R)) : result (list (list R)) :=
  read_lines stod dim euler (getlines newline content) acc.
(** crystal_data.cc:148-208: the three files and the size checks.  The vectors are appended
    to what the object already holds ([e0], [d0], [n0]). *)
Definition open_and_read (stod : string -> option R) (fs : files) (dim : nat) (euler : bool)
  (name : string) (acc : list (list R)) : result (list (list R)) :=
  match fs (name ++ ".txt")%string with
  | Some content => read_and_store stod dim euler content acc
  | None => Throw
  end.
Definition read_and_store_data (stod : string -> option R) (fs : files) (dim n_crystals : nat)
  (orientations directions normals : string) (e0 d0 n0 : list (list R))
  : result (list (list R) * list (list R) * list (list R)) :=
  rbind (open_and_read stod fs dim true orientations e0) (fun e =>
  if Nat.eqb (length e) n_crystals then
    rbind (open_and_read stod fs dim false directions d0) (fun d =>
    rbind (open_and_read stod fs dim false normals n0) (fun n =>
    if Nat.eqb (length n) (length d) then Ok (e, d, n) else Throw))
  else Throw).
