(** Model of cmd/autotidy/autotidy.go and cmd/autoupdate/autoupdate.go, over
    filepath.WalkDir (Go 1.19, path/filepath/path.go).  The two differ only in the
    arguments of the command.  The tree of files does not change during the walk (the
    commands edit go.mod and go.sum, they make no directories). *)
From stdpp Require Import strings.
From Verif Require Import Base.

(** a directory entry; symbolic links and everything else that is no directory are files.
    [enter]: the permission to search it; [read]: os.ReadDir succeeds if the directories
    above can be searched (it does not search the directory itself: the system tells the
    types of the entries).  [kids] is what ReadDir then returns: sorted by name, and
    possibly a part only if it fails. autotidy.go 13-14 asks for IsDir and Name only *)
Inductive tree := File | Dir (enter read : bool) (kids : list (string * tree)).
Notation path := (list string).

(** the process: where it is (relative to the directory in which it was started; None:
    unknown) and the commands it has run, each with the directory it ran in;
    autotidy.go 12, 18-22 *)
Record proc := Proc { cwd : option path; ran : list path }.

Section walk.
(** whether os.Chdir(workdir) works: false if os.Getwd failed, for instance *)
Context (home : bool).

(** os.Chdir to a relative path [p] whose directories can all be entered or not ([ok]);
    from a place other than the start, relative paths lead elsewhere: not modelled here, so
    the theorems are about [home] = true; see CmdWdModel.v for the other case; autotidy.go 18 *)
Definition chdir (p : path) (ok : bool) (s : proc) : proc :=
  if ok then Proc (if decide (cwd s = Some []) then Some p else None) (ran s) else s.
(** autotidy.go 22, 26: os.Chdir(workdir) *)
Definition chdir_home (s : proc) : proc := if home then Proc (Some []) (ran s) else s.
(** exec.Command(...).Run(): its error is ignored, too; autotidy.go 20 *)
Definition run_command (s : proc) : proc := match cwd s with Some d => Proc (cwd s) (ran s ++ [d]) | None => s end.

(** autotidy.go 16, 24: what the function returns *)
Inductive ferr := FNil | FSkipDir.
(** autotidy.go:13-25: the function given to WalkDir; [ok]: the directory can be entered *)
Definition visit (p : path) (name : string) (isdir ok : bool) (s : proc) : proc * ferr :=
  if isdir then
    if decide (name = "vendor") then (s, FSkipDir) else
    if decide (name = ".git") then (s, FSkipDir) else
    (chdir_home (run_command (chdir p ok s)), FNil)
  else (s, FNil).

(** filepath.walkDir; [up]: the directories above can all be entered; autotidy.go 13 *)
Fixpoint walk (p : path) (name : string) (up : bool) (t : tree) (s : proc) : proc :=
  match t with
  | File => (visit p name false up s).1
  | Dir en rd kids =>
      let '(s, e) := visit p name true (up && en) s in
      match e with
      | FSkipDir => s
      | FNil =>
          (* os.ReadDir opens the directory, so needs the permission to search those above
             it; the second call, if it failed, returns nil as the first one did *)
          let s := if up && rd then s else (visit p name true (up && en) s).1 in
          if up then
          (fix loop (l : list (string * tree)) (s : proc) : proc :=
             match l with [] => s | (n, k) :: l => loop l (walk (p ++ [n]) n (up && en) k s) end) kids s
          else s
      end
  end.
(** autotidy.go:11-27 in the directory [t], whose entry has the name "." *)
Definition main_ (t : tree) : proc := chdir_home (walk [] "." true t (Proc (Some []) [])).
End walk.
