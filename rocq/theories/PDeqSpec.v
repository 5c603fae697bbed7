(** What a deque is: a list, taken from at both ends, at one instant. *)
From Verif Require Import Base Conc PDeqModel.

(** the elements, and what has been taken but not yet returned *)
Record adq := AD { a_l : list nat; a_own : option nat; a_hand : nat -> option nat }.
Definition a_init : adq := AD [] None (fun _ => None).
Section spec.
Context (n : Z).
Inductive a_step : adq -> dlab -> adq -> Prop :=
| as_tau a : a_step a LTau a
| as_push l g x : (Z.of_nat (length l) < n)%Z -> a_step (AD l None g) (LPush x) (AD (l ++ [x]) None g)
| as_full l g : Z.of_nat (length l) = n -> a_step (AD l None g) LPushFull (AD l None g)
(* refused although there is room: some popTail has taken its element and not yet returned *)
| as_busy l g i x : (Z.of_nat (length l) < n)%Z -> g i = Some x -> a_step (AD l None g) LPushBusy (AD l None g)
| as_head l g x : a_step (AD (l ++ [x]) None g) LHead (AD l (Some x) g)
| as_head_ret l g x : a_step (AD l (Some x) g) (LHeadRet (Some x)) (AD l None g)
| as_head_none g : a_step (AD [] None g) LHeadNone (AD [] None g)
| as_tail l o g i x : g i = None -> a_step (AD (x :: l) o g) (LTail i) (AD l o (tset g i (Some x)))
| as_tail_ret l o g i x : g i = Some x -> a_step (AD l o g) (LTailRet i (Some x)) (AD l o (tset g i None))
| as_tail_none o g i : g i = None -> a_step (AD [] o g) (LTailNone i) (AD [] o g).
End spec.
