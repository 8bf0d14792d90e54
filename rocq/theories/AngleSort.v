(** Angular order of the neighbours of a vertex (include/mandoline/construction/face_collapser.hpp:113-166).
    Exact arithmetic; signbit of a difference is "negative" (the sign of a negative zero is not represented). *)
From Verif Require Import Base Num.
Set Implicit Arguments.
Local Open Scope Qc_scope.

Definition vec2 := (Qc * Qc)%type.
(** face_collapser.hpp:143-149: __quadrants = {4,1,3,2} indexed by 2*signbit(y)+signbit(x) *)
Definition quadrant (b : vec2) : Z :=
  nth ((if qltb (snd b) 0 then 2 else 0) + (if qltb (fst b) 0 then 1 else 0))%nat [4; 1; 3; 2]%Z 0%Z.
(** face_collapser.hpp:151-161, comp *)
Definition comp (a b : vec2) : bool :=
  if (quadrant a =? quadrant b)%Z then qltb (fst b * snd a) (fst a * snd b) else (quadrant a <? quadrant b)%Z.
(** face_collapser.hpp:138-141: D.col(i) = V.col(j) - va *)
Definition diff (V : Z -> vec2) (a j : Z) : vec2 := (fst (V j) - fst (V a), snd (V j) - snd (V a)).
