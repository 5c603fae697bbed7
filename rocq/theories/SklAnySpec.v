(** What a SkipListMap (dsx/mapx/sklmapx) does when < and == of the key type are
    any two functions: floats with NaN, or a type whose methods are wrong. *)
From Verif Require Import Base SklSpec.

Section Any.
Context {K V : Type} (ltb eqb : K -> K -> bool).
Context (showK : K -> list Z) (showV : V -> list Z).
Notation entries := (list (K * V)).

(** A place in the enumeration where a search for [k] may stop: the entry before
    it, if any, is smaller than [k], the entry after it is not. *)
Definition cut (k : K) (A B : entries) : Prop :=
  (forall e, last A = Some e -> ltb e.1 k = true) /\ (forall e, head B = Some e -> ltb e.1 k = false).
(** and the entry after it is not equal to [k] either *)
Definition miss (k : K) (A B : entries) : Prop :=
  cut k A B /\ forall e, head B = Some e -> eqb e.1 k = false.

(** m[k] = v on a Go map whose entries are listed oldest first *)
Fixpoint put (m : entries) (k : K) (v : V) : entries :=
  match m with
  | [] => [(k, v)]
  | e :: m' => if eqb e.1 k then (e.1, v) :: m' else e :: put m' k v
  end.

(** One call, on a map whose enumeration is the first list, and is the second
    list afterwards. *)
Inductive any_step : entries -> mop K V -> entries -> mret K V -> Prop :=
| any_set_new A B k v : miss k A B ->
    any_step (A ++ B) (MSet k v) (A ++ (k, v) :: B) MUnit
| any_set_old A B k v k0 v0 : cut k A ((k0, v0) :: B) -> eqb k0 k = true ->
    any_step (A ++ (k0, v0) :: B) (MSet k v) (A ++ (k0, v) :: B) MUnit
| any_get_new A B k : miss k A B -> any_step (A ++ B) (MGet k) (A ++ B) (MVal None)
| any_get_old A B k k0 v0 : cut k A ((k0, v0) :: B) -> eqb k0 k = true ->
    any_step (A ++ (k0, v0) :: B) (MGet k) (A ++ (k0, v0) :: B) (MVal (Some v0))
| any_del_new A B k : miss k A B -> any_step (A ++ B) (MDel k) (A ++ B) (MBool false)
| any_del_old A B k k0 v0 : cut k A ((k0, v0) :: B) -> eqb k0 k = true ->
    any_step (A ++ (k0, v0) :: B) (MDel k) (A ++ B) (MBool true)
| any_len es : any_step es MLen es (MInt (Z.of_nat (length es)))
| any_clear es : any_step es MClear [] MUnit
| any_keys es : any_step es MKeys es (MKeyList es.*1)
| any_values es : any_step es MValues es (MValList es.*2)
| any_string es : any_step es MString es
    (MStr ([115; 107; 108; 109; 97; 112; 120; 91]%Z ++ join_space (show_entry showK showV <$> es) ++ [93%Z]))
| any_map es : any_step es MToMap es (MMap (fold_left (fun m e => put m e.1 e.2) es [])).

Inductive any_steps : entries -> list (mop K V) -> entries -> list (mret K V) -> Prop :=
| any_nil es : any_steps es [] es []
| any_cons es o es1 r os es2 rs : any_step es o es1 r -> any_steps es1 os es2 rs ->
    any_steps es (o :: os) es2 (r :: rs).
End Any.

(** The Sets of keys of some kind since the last Clear, most recent first. *)
Fixpoint recent_sets {K V} (kind : K -> bool) (rev_hist : list (mop K V)) : list (K * V) :=
  match rev_hist with
  | [] => []
  | MSet k v :: r => if kind k then (k, v) :: recent_sets kind r else recent_sets kind r
  | MClear :: _ => []
  | _ :: r => recent_sets kind r
  end.

(** Keys like NaN: nothing is smaller than one, or equal to one, on either side. *)
Record unordered {K} (ltb eqb : K -> K -> bool) (kind : K -> bool) : Prop := {
  un_lt : forall x k, kind k = true -> ltb x k = false;
  un_eq : forall x k, kind k = true -> eqb x k = false /\ eqb k x = false }.
