(** Printed names and errors. *)
From Verif Require Import Base Types Reader Display DisplaySpec DisplayProofs.

(** ** C20: expanded names *)

Theorem C20_display_form : forall n,
  xn_display n = if String.eqb (xn_ns n) "" then xn_local n
                 else ("{" ++ xn_ns n ++ "}" ++ xn_local n)%string.
Proof. exact (fun n => eq_refl). Qed.
Print Assumptions C20_display_form.

Theorem C20_display_injective : forall a b,
  free_of "{" (xn_local a) -> free_of "{" (xn_local b) ->
  free_of "}" (xn_ns a) -> free_of "}" (xn_ns b) ->
  xn_display a = xn_display b -> a = b.
Proof. exact display_injective. Qed.
Print Assumptions C20_display_injective.

Example C20_example :
  free_of "{" "name" /\ free_of "}" "urn:x" /\
  xn_display (XName "urn:x" "name") = "{urn:x}name"%string /\ xn_display (XName "" "name") = "name"%string.
Proof. repeat split; unfold free_of; cbn; intuition discriminate. Qed.

(** Without the conditions it is false. *)
Example C20_conditions_needed :
  xn_display (XName "" "{a}b") = xn_display (XName "a" "b").
Proof. reflexivity. Qed.

(** ** C43: errors *)

(** [show]: how an event is printed. The message and position come first; then, for a non-empty
    stack, a blank line, a title, and a line per element; the line of the element at index [i] of the
    stack (0: the root) is the [i]th from the end. *)
Theorem C43_display_shape : forall show e, exists p, pos_text (er_pos e) p /\
  (er_stack e = [] /\ error_display show e = (kind_display show (er_kind e) ++ " @ " ++ p)%string \/
   er_stack e <> [] /\ exists ls,
     List.length ls = List.length (er_stack e) /\
     (forall i el, nth_error (er_stack e) i = Some el ->
        exists l, nth_error ls (List.length (er_stack e) - 1 - i) = Some l /\ line_text i el l) /\
     error_display show e =
       (kind_display show (er_kind e) ++ " @ " ++ p ++
        lines_text ("" :: "" :: "XML element stack:" :: ls))%string).
Proof. exact display_shape. Qed.
Print Assumptions C43_display_shape.

(** The message. *)
Theorem C43_message : forall show k s, message show k s <-> kind_display show k = s.
Proof. exact kind_message. Qed.
Print Assumptions C43_message.

(** The printed error determines the position and, for every element of the stack, its qualified
    name and position. *)
Theorem C43_stack_recoverable : forall show e1 e2,
  Forall (fun el => plain_name (se_name el)) (er_stack e1) ->
  Forall (fun el => plain_name (se_name el)) (er_stack e2) ->
  kind_display show (er_kind e1) = kind_display show (er_kind e2) ->
  error_display show e1 = error_display show e2 ->
  er_pos e1 = er_pos e2 /\ Forall2 same_print (er_stack e1) (er_stack e2).
Proof. exact display_recoverable. Qed.
Print Assumptions C43_stack_recoverable.

Definition err0 : error :=
  Error (EDeserializer "bad") [SElem (OName None None "root") (0%N, 0%N); SElem (OName (Some "p"%string) (Some "u"%string) "kid") (11%N, 4%N)]
    (12%N, 9%N).

Example C43_example :
  Forall (fun el => plain_name (se_name el)) (er_stack err0) /\
  error_display (fun _ => ""%string) err0 = "bad @ 13:10

XML element stack:
   1: <p:kid> @ 12:5
   0: <root> @ 1:1
"%string.
Proof.
  split; [|reflexivity].
  repeat apply Forall_cons; [| |apply Forall_nil]; (split; [|split]).
  all: unfold free_of; cbn; try (intros p [= <-]; split); try discriminate; cbn; intuition discriminate.
Qed.

Example C43_message_example : message (fun _ => ""%string) (EMsg (MUnexpectedElement (OName (Some "p"%string) (Some "u"%string) "kid")))
  "Unexpected element {u}p:kid in string".
Proof. now apply kind_message. Qed.
