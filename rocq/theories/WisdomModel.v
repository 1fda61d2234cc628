(** Model of the wisdom bookkeeping in fftw++.cc:34-97: loadWisdom, recall, saveWisdom, Planner.
    The text of a wisdom file is simplified to the sequence of its entries; FFTW's wisdom is the
    collection of entries accumulated (import adds, forget empties, export lists). *)
From Coq Require Import Arith List Bool Ascii.
Import ListNotations.

Definition path := list ascii.
Definition slash : ascii := "/"%char.
Definition underscore : ascii := "_"%char.
Definition entry := nat.
Definition content := list entry.

(** directory part of a path, up to and including the last '/' *)
Fixpoint dir_of (p : path) : path :=
  match p with
  | [] => []
  | c :: p => match dir_of p with
              | [] => if Ascii.eqb c slash then [c] else []
              | d => c :: d
              end
  end.
Definition path_eqb (p q : path) : bool := if list_eq_dec ascii_dec p q then true else false.

(** file system: file contents and the existing directories ([] is the working directory) *)
Record fsys := mkfs { files : path -> option content; dirs : path -> bool }.
Definition fset (f : path -> option content) (p : path) (c : option content) : path -> option content :=
  fun q => if path_eqb p q then c else f q.

(** system calls; the stream remembers whether its open succeeded (later writes to a failed
    stream do nothing, and rename of a missing file fails without effect) *)
Inductive fop := OpenTrunc (p : path) | Append (p : path) (c : content) | Close | Rename (p q : path).
Definition fstep (s : fsys * bool) (o : fop) : fsys * bool :=
  let '(fs, ok) := s in
  match o with
  | OpenTrunc p => if dirs fs (dir_of p) then (mkfs (fset (files fs) p (Some [])) (dirs fs), true) else (fs, false)
  | Append p c => if ok then
                    match files fs p with
                    | Some old => (mkfs (fset (files fs) p (Some (old ++ c))) (dirs fs), ok)
                    | None => (fs, ok)
                    end
                  else (fs, ok)
  | Close => (fs, ok)
  | Rename p q => match files fs p with
                  | Some c => (mkfs (fset (fset (files fs) p None) q (Some c)) (dirs fs), ok)
                  | None => (fs, ok)
                  end
  end.
Definition frun (ops : list fop) (fs : fsys) : fsys := fst (fold_left fstep ops (fs, false)).

(** fftw++.cc:65-70: open, write (in the pieces the stream flushes), close, rename *)
Definition save_ops (temp name : path) (pieces : list content) : list fop :=
  OpenTrunc temp :: map (Append temp) pieces ++ [Close; Rename temp name].

(** the globals: fftw++.cc:12-32, and FFTW's own wisdom [w_mem] *)
Record wstate := mkw {
  w_fs : fsys; w_temp : path; w_wise : bool; w_wiser : bool;
  w_mem : content; w_epi : option content }.

Section Wisdom.
Variables (name : path) (pid : path).     (* wisdomName and the digits of getpid() *)
Variable learn : entry -> content.        (* entries FFTW adds when it plans a problem *)

(** fftw++.cc:34-47 *)
Definition loadWisdom (s : wstate) : wstate :=
  if w_wise s then s else
    mkw (w_fs s) (w_temp s ++ name ++ [underscore] ++ pid) true (w_wiser s)
        (w_mem s ++ match files (w_fs s) name with Some c => c | None => [] end) (w_epi s).

(** fftw++.cc:49-55 *)
Definition recall (s : wstate) : wstate :=
  match w_epi s with
  | Some e => mkw (w_fs s) (w_temp s) (w_wise s) (w_wiser s) (w_mem s ++ e) None
  | None => s
  end.

(** fftw++.cc:57-64: the part before the file is written; the wisdom exported is w_mem *)
Definition save_prepare (s : wstate) : wstate :=
  recall (loadWisdom (mkw (w_fs s) (w_temp s) false (w_wiser s) [] (w_epi s))).
(** fftw++.cc:64-71, the wisdom being flushed in the given pieces *)
Definition save_write (pieces : content -> list content) (s : wstate) : wstate :=
  mkw (frun (save_ops (w_temp s) name (pieces (w_mem s))) (w_fs s)) (w_temp s) (w_wise s) false (w_mem s) (w_epi s).
Definition saveWisdom (pieces : content -> list content) (s : wstate) : wstate :=
  if w_wiser s then save_write pieces (save_prepare s) else s.

(** fftw++.cc:75-97; planning under FFTW_WISDOM_ONLY succeeds iff the problem is known *)
Definition Planner (p : entry) (s : wstate) : wstate :=
  let s := loadWisdom s in
  if existsb (Nat.eqb p) (w_mem s) then s
  else
    let experience := w_mem s in
    let s := mkw (w_fs s) (w_temp s) (w_wise s) (w_wiser s) [] (w_epi s) in              (* forget *)
    let s := mkw (w_fs s) (w_temp s) (w_wise s) (w_wiser s) (learn p) (w_epi s) in       (* Plan *)
    let s := recall s in
    let epiphany := w_mem s in
    mkw (w_fs s) (w_temp s) (w_wise s) true (w_mem s ++ experience) (Some epiphany).

(** a history: planning calls, saves, and other processes adding entries to the wisdom file *)
Inductive event := Plan (p : entry) | Save | Other (c : content).
Definition add_entries (fs : fsys) (c : content) : fsys :=
  mkfs (fset (files fs) name (Some (match files fs name with Some old => old ++ c | None => c end))) (dirs fs).
Definition wstep (pieces : content -> list content) (s : wstate) (e : event) : wstate :=
  match e with
  | Plan p => Planner p s
  | Save => saveWisdom pieces s
  | Other c => mkw (add_entries (w_fs s) c) (w_temp s) (w_wise s) (w_wiser s) (w_mem s) (w_epi s)
  end.
Definition wrun (pieces : content -> list content) (h : list event) (s : wstate) : wstate := fold_left (wstep pieces) h s.
Definition wstart (fs : fsys) : wstate := mkw fs [] false false [] None.
End Wisdom.
