(** Model of /repo/src/tools/config-reader.hpp: ConfigReader, read_command_line, OptArg. *)
From Verif Require Export Text.

(** A file as the constructor (config-reader.hpp:69-70) sees it. std::fstream(name) opens for reading and writing. *)
Record file := mkF { f_exists : bool; f_readable : bool; f_writable : bool; f_text : text }.
(** map_, config-reader.hpp:62. *)
Definition cmap := list (text * text).                     (* unordered_map; the newest entry for a key is first *)
(** map_.find and map_[key], config-reader.hpp:92, 94. *)
Fixpoint lookup (m : cmap) (k : text) : option text :=     (* map_.find *)
  match m with [] => None | (a, b) :: r => if list_eq_dec ascii_dec a k then Some b else lookup r k end.
(** line.erase(remove_if(..., isspace)), config-reader.hpp:73. *)
Definition strip (t : text) : text := filter (fun c => negb (isspace c)) t.
(** find/substr, config-reader.hpp:77-79: no divider gives find = npos, hence key = whole line, and npos + 1 = 0, hence value = whole line. *)
Definition key_val (divider : ascii) (l : text) : text * text :=
  match cut divider l with Some (k, v) => (k, v) | None => (l, l) end.
(** One turn of the loop, config-reader.hpp:72-81: line[0] of an empty line is the null character. *)
Definition add_line (divider commenter : ascii) (m : cmap) (raw : text) : cmap :=
  let l := strip raw in
  match l with
  | [] => m
  | c :: _ => if Ascii.eqb c commenter then m else let (k, v) := key_val divider l in (k, v) :: m
  end.
(** The constructor, config-reader.hpp:68-85 (the other one, 87-88, calls it). *)
Definition config (divider commenter : ascii) (f : file) : outcome cmap :=
  if f_exists f && f_readable f && f_writable f then Ok (fold_left (add_line divider commenter) (getlines (f_text f)) []) else Abort.
(** get<T>, config-reader.hpp:90-101.  [extract] is stringstream >> value: the extracted value (a failed conversion stores a value too),
    or None when the text has no character left, in which case the uninitialised variable is returned. *)
Definition get {T} (extract : text -> option T) (m : cmap) (key : text) : outcome T :=
  match lookup m key with
  | None => Abort
  | Some v => match extract v with Some x => Ok x | None => UB end
  end.
(** get<std::string>, config-reader.hpp:90-101: a default-constructed string stays empty. *)
Definition word (t : text) : text * text := take (fun c => negb (isspace c)) (skip isspace t).
(** get<std::string>, config-reader.hpp:90-101. *)
Definition get_string (m : cmap) (key : text) : outcome text :=
  match lookup m key with None => Abort | Some v => Ok (fst (word v)) end.

(** read_command_line, config-reader.hpp:103-116, with OptArg or std::string variables (operator>> reads a word; at the end of the
    text it fails and the remaining variables keep their values). [vars]: old values. *)
Fixpoint read_words (t : text) (vars : list text) : list text :=
  match vars with
  | [] => []
  | v :: r => match skip isspace t with
              | [] => v :: r
              | _ => let (w, t') := word t in w :: read_words t' r
              end
  end.
(** The stringstream contents, config-reader.hpp:110-113. *)
Definition cmd_text (args : list text) : text := concat (map (fun a => a ++ [blank]) args).
(** config-reader.hpp:104-109; argc = number of arguments + 1 (the program name). *)
Definition read_command_line (args vars : list text) : outcome (list text) :=
  if (length args + 1 =? length vars + 1)%nat then Ok (read_words (cmd_text args) vars) else Abort.
