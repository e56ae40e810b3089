(** Property theorems for C85: texts of floating-point numbers.

    The oracles of Text.v read and write floats in any way; [std_floats] (Float.v) gives them the methods of std.  A float is its bit
    pattern; FloatSpec.v says which number that is.  [w]: f64 or f32. *)
From Coq Require Import QArith Qabs.
From Verif Require Import Base Text TextSpec Types RTSpec NamesSpec Float FloatSpec FloatProofs FloatText FloatShort FloatLaws FloatUse.
Local Open Scope Z_scope.

(** ** C85: floating-point text *)

(** Every literal of xs:double and xs:float is accepted, with any white space around it, and else only three words. *)
Theorem C85_accepted : forall o w text,
  (exists n, parse_text (std_floats o) (TFloat w) text = Ok (TVFloat n)) <->
  exists l, padded l (bytes_of text) /\ (xsd_literal l \/ other_literal l).
Proof. exact float_accepted. Qed.
Print Assumptions C85_accepted.

(** All the rest is rejected, with one of two messages. *)
Theorem C85_rejected : forall o w text e, parse_text (std_floats o) (TFloat w) text = Err e <->
  exists l, padded l (bytes_of text) /\ trimmed l /\
    (l = [] /\ e = "cannot parse float from empty string"%string \/
     l <> [] /\ ~ (xsd_literal l \/ other_literal l) /\ e = "invalid float literal"%string).
Proof. exact float_rejected. Qed.
Print Assumptions C85_rejected.

(** A number is read as the nearest float, the even one of two, infinity if it is too large; the sign is kept also for zero. *)
Theorem C85_number : forall o w text neg s l m e x,
  padded (s ++ l) (bytes_of text) -> sign neg s -> numeric l m e x -> x < 655360 ->
  exists n, parse_text (std_floats o) (TFloat w) text = Ok (TVFloat n) /\ rounded w neg (exact m e) n.
Proof. exact float_number. Qed.
Print Assumptions C85_number.

(** There is only one such float. *)
Theorem C85_nearest : forall w neg m e n n', rounded w neg (exact m e) n -> rounded w neg (exact m e) n' -> n = n'.
Proof. exact rounded_unique. Qed.
Print Assumptions C85_nearest.

(** The bound on the exponent is needed: digits of an exponent are ignored once it is 65536 or more. *)
Theorem C85_number_refuted : forall o w, exists text neg s l m e x n,
  padded (s ++ l) (bytes_of text) /\ sign neg s /\ numeric l m e x /\
  parse_text (std_floats o) (TFloat w) text = Ok (TVFloat n) /\ ~ rounded w neg (exact m e) n.
Proof. exact number_refuted. Qed.
Print Assumptions C85_number_refuted.

(** inf, infinity and nan, in upper or lower case. *)
Theorem C85_word : forall o w text neg s l t,
  padded (s ++ l) (bytes_of text) -> sign neg s -> In t ["inf"; "infinity"; "nan"]%string -> Forall2 same_letter l (bytes_of t) ->
  exists n, parse_text (std_floats o) (TFloat w) text = Ok (TVFloat n) /\ is_float w n /\ is_negative w n = neg /\
    (if String.eqb t "nan" then is_nan w n else is_infinite w n).
Proof. exact float_word. Qed.
Print Assumptions C85_word.

(** Only the number matters, not how it is written. *)
Theorem C85_same : forall o w text text' neg s s' l l' m m' e e' x x',
  padded (s ++ l) (bytes_of text) -> sign neg s -> numeric l m e x -> x < 655360 ->
  padded (s' ++ l') (bytes_of text') -> sign neg s' -> numeric l' m' e' x' -> x' < 655360 ->
  (exact m e == exact m' e')%Q -> parse_text (std_floats o) (TFloat w) text = parse_text (std_floats o) (TFloat w) text'.
Proof. exact float_same. Qed.
Print Assumptions C85_same.

(** A number that is a float is read as this float. *)
Theorem C85_exact : forall o w text n s l m e x, padded (s ++ l) (bytes_of text) -> sign (is_negative w n) s -> numeric l m e x -> x < 655360 ->
  is_float w n -> ~ is_nan w n -> (exact m e == magnitude w n)%Q -> parse_text (std_floats o) (TFloat w) text = Ok (TVFloat n).
Proof. exact float_exact. Qed.
Print Assumptions C85_exact.

(** Larger numbers are not read as smaller floats.  (Floats of one sign are ordered as their bits.) *)
Theorem C85_monotone : forall o w text text' neg s s' l l' m m' e e' x x' n n',
  padded (s ++ l) (bytes_of text) -> sign neg s -> numeric l m e x -> x < 655360 ->
  padded (s' ++ l') (bytes_of text') -> sign neg s' -> numeric l' m' e' x' -> x' < 655360 ->
  (exact m e <= exact m' e')%Q -> parse_text (std_floats o) (TFloat w) text = Ok (TVFloat n) ->
  parse_text (std_floats o) (TFloat w) text' = Ok (TVFloat n') -> (n <= n')%N.
Proof. exact float_monotone. Qed.
Print Assumptions C85_monotone.

(** What is written: a number without exponent and without needless zeros, that is read as the float; no number with fewer digits is
    ([d], without the zeros that show its place), and none with as many is nearer. *)
Theorem C85_written : forall o w n, is_float w n -> exists text, to_text (std_floats o) (TFloat w) (TVFloat n) = Some text /\
  (is_nan w n -> text = "NaN"%string) /\
  (is_infinite w n -> text = if is_negative w n then "-inf"%string else "inf"%string) /\
  (~ is_nan w n -> ~ is_infinite w n -> exists l m e d q,
     bytes_of text = (if is_negative w n then ["-"%char] else []) ++ l /\ decimal l m e /\ plain l /\
     rounded w (is_negative w n) (exact m e) n /\ (exact m e == exact d q)%Q /\
     (forall d' q' k, 0 < d' -> rounded w (is_negative w n) (exact d' q') n -> 0 <= k -> d' < 10 ^ k -> d < 10 ^ k) /\
     (forall d', 0 < d' -> rounded w (is_negative w n) (exact d' q) n ->
        (Qabs (exact d q - magnitude w n) <= Qabs (exact d' q - magnitude w n))%Q)).
Proof. exact float_text. Qed.
Print Assumptions C85_written.

(** This is a literal of XML Schema, except for infinities. *)
Theorem C85_xsd : forall o w n text, is_float w n -> ~ is_infinite w n ->
  to_text (std_floats o) (TFloat w) (TVFloat n) = Some text -> xsd_literal (bytes_of text).
Proof. exact float_xsd. Qed.
Print Assumptions C85_xsd.

Theorem C85_infinity_refuted : forall o w, exists n text, is_float w n /\
  to_text (std_floats o) (TFloat w) (TVFloat n) = Some text /\ ~ xsd_literal (bytes_of text).
Proof. exact inf_refuted. Qed.
Print Assumptions C85_infinity_refuted.

(** What is written is read back, bit by bit, except for NaN, which is read as some NaN. *)
Theorem C85_read_back : forall o w n text, is_float w n -> ~ is_nan w n ->
  to_text (std_floats o) (TFloat w) (TVFloat n) = Some text -> parse_text (std_floats o) (TFloat w) text = Ok (TVFloat n).
Proof. exact float_back. Qed.
Print Assumptions C85_read_back.

Theorem C85_nan : forall o w n text, is_float w n -> is_nan w n -> to_text (std_floats o) (TFloat w) (TVFloat n) = Some text ->
  exists n', parse_text (std_floats o) (TFloat w) text = Ok (TVFloat n') /\ is_nan w n' /\ is_negative w n' = false.
Proof. exact float_nan_back. Qed.
Print Assumptions C85_nan.

Theorem C85_nan_refuted : forall o w, exists text n text' n', parse_text (std_floats o) (TFloat w) text = Ok (TVFloat n) /\
  to_text (std_floats o) (TFloat w) (TVFloat n) = Some text' /\ parse_text (std_floats o) (TFloat w) text' = Ok (TVFloat n') /\ n <> n'.
Proof. exact nan_refuted. Qed.
Print Assumptions C85_nan_refuted.

(** So floats other than NaN survive being written and read, in the sense of C38, in elements and in attributes. *)
Theorem C85_survives : forall o env w n, is_float w n -> ~ is_nan w n ->
  survives (std_floats o) env (EText (TFloat w)) (VText (TVFloat n)).
Proof. exact float_survives. Qed.
Print Assumptions C85_survives.

Theorem C85_survives_attribute : forall o env R claimed f w n (opt : bool), is_float w n -> ~ is_nan w n ->
  f_mode f = MAttribute opt (TFloat w) ->
  survives_field (std_floats o) env R claimed f (if opt then VSome (VText (TVFloat n)) else VText (TVFloat n)).
Proof. exact float_survives_attribute. Qed.
Print Assumptions C85_survives_attribute.

(** Floats are written as XML characters, which C59 asks for. *)
Theorem C85_characters : forall o w, prints_xml (std_floats o) (TFloat w).
Proof. exact float_prints. Qed.
Print Assumptions C85_characters.

(** ** Examples *)

Definition rd (w : bool) (s : string) : res string N := float_from_str w s.

(** Numbers, with point, exponent, sign *)
Example C85_ex_numbers : rd false "1.5E2" = Ok 1125515264%N /\ rd false "+.5" = Ok 1056964608%N /\
  rd false "5." = Ok 1084227584%N /\ rd false "-0" = Ok 2147483648%N /\ rd false "0.1" = Ok 1036831949%N.
Proof. repeat split; vm_compute; reflexivity. Qed.

Example C85_ex_literal : xsd_literal (bytes_of "-1.5E+2").
Proof.
  assert (D : decimal (bytes_of "1.5") 15 (-1)) by (apply (dec_point ["1"%char] ["5"%char]); split; [discriminate|reflexivity]).
  assert (D2 : digits ["2"%char]) by (split; [discriminate|reflexivity]).
  apply (xsd_number true ["-"%char] (bytes_of "1.5E+2") 15 (-1 + 2) 2 eq_refl).
  apply (num_exponent (bytes_of "1.5") 15 (-1) "E" false ["+"%char] ["2"%char] D); [right; reflexivity|right; reflexivity|exact D2].
Qed.

(** Too large, half of the smallest number (even: zero), and just above *)
Example C85_ex_limits : rd false "1e39" = Ok 2139095040%N /\ rd false "340282357e30" = Ok 2139095040%N /\ rd false "340282356e30" = Ok 2139095039%N /\
  rd false "1e-46" = Ok 0%N /\ rd false "16777217" = Ok 1266679808%N /\ rd false "16777217.0001" = Ok 1266679809%N.
Proof. repeat split; vm_compute; reflexivity. Qed.

Example C85_ex_words : rd true "INF" = rd true "Infinity" /\ rd true "-INF" = Ok 18442240474082181120%N /\ rd true "NaN" = Ok 9221120237041090560%N.
Proof. repeat split; vm_compute; reflexivity. Qed.

Example C85_ex_not : rd true "" = Err "cannot parse float from empty string"%string /\ rd true "." = Err "invalid float literal"%string /\
  rd true "1e" = Err "invalid float literal"%string /\ rd true "1 2" = Err "invalid float literal"%string /\
  rd true "0x1" = Err "invalid float literal"%string /\ rd true "1,5" = Err "invalid float literal"%string.
Proof. repeat split; vm_compute; reflexivity. Qed.

(** 0.1, -1.5, 2^24 and 1e21 *)
Example C85_ex_written : float_show false 1036831949 = "0.1"%string /\ float_show false 3217031168 = "-1.5"%string /\
  float_show false 1266679808 = "16777216"%string /\ float_show false 1649989415 = "1000000000000000000000"%string.
Proof. repeat split; vm_compute; reflexivity. Qed.

(** A float that is a number, an infinity, a NaN *)
Example C85_ex_kinds : is_float true 4591870180066957722 /\ ~ is_nan true 4591870180066957722 /\ ~ is_infinite true 4591870180066957722 /\
  is_infinite false 2139095040 /\ is_nan false 2143289344.
Proof. repeat split; try (intros [H _]; vm_compute in H; discriminate H); vm_compute; try reflexivity; discriminate. Qed.
