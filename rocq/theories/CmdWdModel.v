(** cmd/autotidy/autotidy.go and cmd/autoupdate/autoupdate.go once more (lines 11-27 of
    both), with the paths resolved by the system at each call from wherever the process is
    then.  CmdModel.v walks over the tree itself, which is the same thing only as long as
    the process comes back to its start after each command; here os.Chdir(workdir) may fail.
    All paths the program uses but workdir are relative and lead downwards, so the tree
    below the start is all that matters, provided it has no symbolic links to directories
    (WalkDir takes them for files, os.Chdir would follow them).  The tree does not change
    during the walk. *)
From stdpp Require Import strings.
From Verif Require Import Base CmdModel.

(** the process: where it is, relative to the start, and where it has run its command;
    autotidy.go 12, 18-22 *)
Record wproc := WProc { wd : path; wran : list path }.

(** the entry [n] of a directory; needed at autotidy.go 13, 18 *)
Definition kid (kids : list (string * tree)) (n : string) : option tree :=
  match list_find (fun k => k.1 = n) kids with Some (_, (_, k)) => Some k | None => None end.
(** the system's resolution of a relative path from the directory [t]: every directory on
    the way must be searched; autotidy.go 13, 18 *)
Fixpoint resolve (t : tree) (p : path) : option tree :=
  match p with
  | [] => Some t
  | n :: p => match t with Dir true _ kids => match kid kids n with Some k => resolve k p | None => None end | _ => None end
  end.
(** the directory the process is in: it holds it, no permission is asked; autotidy.go 18 *)
Fixpoint node (t : tree) (p : path) : tree :=
  match p with
  | [] => t
  | n :: p => match t with Dir _ _ kids => match kid kids n with Some k => node k p | None => File end | File => File end
  end.
(** autotidy.go 14: d.IsDir() *)
Definition is_dirb (t : tree) : bool := match t with Dir _ _ _ => true | File => false end.

Section walk.
Context (T : tree) (home : bool).

(** os.Chdir(path): needs the permission to search the directory it leads to, too;
    autotidy.go 18 *)
Definition w_chdir (p : path) (s : wproc) : wproc :=
  match resolve (node T (wd s)) p with
  | Some (Dir true _ _) => WProc (wd s ++ p) (wran s)
  | _ => s
  end.
(** os.Chdir(workdir): an absolute path; fails if os.Getwd did (workdir is then empty), or
    if a directory above the start cannot be searched; autotidy.go 22, 26 *)
Definition w_chdir_home (s : wproc) : wproc := if home then WProc [] (wran s) else s.
(** exec.Command(...).Run(), errors ignored; autotidy.go 20 *)
Definition w_run (s : wproc) : wproc := WProc (wd s) (wran s ++ [wd s]).
(** autotidy.go:13-25 *)
Definition w_visit (p : path) (name : string) (isdir : bool) (s : wproc) : wproc * ferr :=
  if isdir then
    if decide (name = "vendor") then (s, FSkipDir) else
    if decide (name = ".git") then (s, FSkipDir) else
    (w_chdir_home (w_run (w_chdir p s)), FNil)
  else (s, FNil).
(** os.ReadDir(path): the entries it returns, and whether it returns an error;
    called by WalkDir, autotidy.go 13 *)
Definition w_readdir (p : path) (s : wproc) : list (string * tree) * bool :=
  match resolve (node T (wd s)) p with
  | Some (Dir _ rd kids) => (kids, negb rd)
  | _ => ([], true)
  end.

(** filepath.walkDir (Go 1.19); of an entry it knows the name and whether it is a
    directory.  [Spin]: the depth [fuel] of recursion is not enough. *)
Fixpoint w_walk (fuel : nat) (p : path) (name : string) (isdir : bool) (s : wproc) : res wproc :=
  match fuel with
  | O => Spin
  | S fuel =>
      let '(s, e) := w_visit p name isdir s in
      match isdir, e with
      | true, FNil =>
          let '(kids, bad) := w_readdir p s in
          let s := if bad then (w_visit p name isdir s).1 else s in
          (fix loop (l : list (string * tree)) (s : wproc) : res wproc :=
             match l with
             | [] => Ret s
             | (n, k) :: l => let! s := w_walk fuel (p ++ [n]) n (is_dirb k) s in loop l s
             end) kids s
      | _, _ => Ret s
      end
  end.
(** filepath.WalkDir and main: os.Lstat(".") searches the start directory; if it fails the
    function is called with a nil d, and d.IsDir() panics; autotidy.go 11-27 *)
Definition w_main (fuel : nat) : res wproc :=
  match T with
  | Dir true _ _ => let! s := w_walk fuel [] "." true (WProc [] []) in Ret (w_chdir_home s)
  | _ => Panic
  end.
End walk.
