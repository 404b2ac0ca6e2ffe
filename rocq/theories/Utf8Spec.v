(** * UTF-8 after RFC 3629: which bytes stand for which character *)
From Coq Require Import List NArith.
From Verif Require Import Text.
Import ListNotations.
Open Scope N_scope.

(** Unicode scalar values: all code points but the surrogates. *)
Definition scalar (c : N) : Prop := c < 55296 \/ 57344 <= c < 1114112.

(** The shortest form only; [x], [y], [z] are groups of six bits. *)
Inductive encodes : N -> list N -> Prop :=
| enc1 c : c < 128 -> encodes c [c]
| enc2 w x : x < 64 -> 128 <= w * 64 + x < 2048 ->
    encodes (w * 64 + x) [192 + w; 128 + x]
| enc3 w x y : x < 64 -> y < 64 -> let c := w * 4096 + x * 64 + y in 2048 <= c < 65536 -> scalar c ->
    encodes c [224 + w; 128 + x; 128 + y]
| enc4 w x y z : x < 64 -> y < 64 -> z < 64 -> let c := w * 262144 + x * 4096 + y * 64 + z in
    65536 <= c -> scalar c -> encodes c [240 + w; 128 + x; 128 + y; 128 + z].

(** [utf8 t bs]: the bytes [bs] are the text [t]. *)
Inductive utf8 : text -> list N -> Prop :=
| utf8_nil : utf8 [] []
| utf8_cons c e t bs : encodes c e -> utf8 t bs -> utf8 (c :: t) (e ++ bs).
Definition decodable (bs : list N) : Prop := exists t, utf8 t bs.
Definition ascii_text (t : list N) : Prop := Forall (fun c => c < 128) t.
(** [rest] is empty or starts a new line. *)
Definition line_end (rest : list N) : Prop := rest = [] \/ exists r, rest = [10] ++ r.
