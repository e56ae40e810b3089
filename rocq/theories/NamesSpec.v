(** XML 1.0 (fifth edition) and Namespaces in XML: which names and which texts a document may contain. *)
From Verif Require Import Base NormalizeSpec Text Types Reader ReaderSpec Ser DSerSpec.

(** ** Characters *)

(** Production 2, [Char]. *)
Definition xml_char (c : N) : Prop :=
  (c = 9 \/ c = 10 \/ c = 13 \/ 0x20 <= c <= 0xD7FF \/ 0xE000 <= c <= 0xFFFD \/ 0x10000 <= c <= 0x10FFFF)%N.

(** Production 4, [NameStartChar], without the colon. *)
Definition name_start_char (c : N) : Prop :=
  (0x41 <= c <= 0x5A \/ c = 0x5F \/ 0x61 <= c <= 0x7A \/ 0xC0 <= c <= 0xD6 \/ 0xD8 <= c <= 0xF6 \/
   0xF8 <= c <= 0x2FF \/ 0x370 <= c <= 0x37D \/ 0x37F <= c <= 0x1FFF \/ 0x200C <= c <= 0x200D \/
   0x2070 <= c <= 0x218F \/ 0x2C00 <= c <= 0x2FEF \/ 0x3001 <= c <= 0xD7FF \/ 0xF900 <= c <= 0xFDCF \/
   0xFDF0 <= c <= 0xFFFD \/ 0x10000 <= c <= 0xEFFFF)%N.

(** Production 4a, [NameChar], without the colon. *)
Definition name_char (c : N) : Prop :=
  name_start_char c \/
  (c = 0x2D \/ c = 0x2E \/ 0x30 <= c <= 0x39 \/ c = 0xB7 \/ 0x300 <= c <= 0x36F \/ 0x203F <= c <= 0x2040)%N.

(** ** Strings, in UTF-8 *)

Definition xml_text (s : string) : Prop := exists cs, s = str_of (utf8 cs) /\ Forall xml_char cs.

(** Namespaces in XML, production 4, [NCName]. *)
Definition ncname (s : string) : Prop :=
  exists c cs, s = str_of (utf8 (c :: cs)) /\ name_start_char c /\ Forall name_char cs.

(** ** Events *)

Definition name_wf (n : pname) : Prop :=
  match pn_prefix n with Some p => ncname p | None => True end /\ ncname (pn_local n).

(** A prefix that is declared; the empty one stands for the default namespace. *)
Definition prefix_wf (p : string) : Prop := p = ""%string \/ ncname p.

Definition event_wf (e : wevent) : Prop :=
  match e with
  | WStart n attrs ns =>
      name_wf n /\ (forall a v, In (a, v) attrs -> name_wf a /\ xml_text v) /\
      (forall p u, In (p, u) ns -> prefix_wf p /\ xml_text u)
  | WChars s => xml_text s
  | WEnd => True
  end.

(** ** What a program asks for, whatever the results of its calls *)

Fixpoint proper_a (a : aprog) : Prop :=
  match a with
  | ARet _ | APanic _ => True
  | ANs p u a' => prefix_wf p /\ xml_text u /\ proper_a a'
  | AAttr n v f => ncname (xn_local n) /\ xml_text v /\ forall r, proper_a (f r)
  end.

Fixpoint proper_w {d} (p : wprog d) : Prop :=
  match p with
  | WRet _ | WPanic _ => True
  | WText s f => xml_text s /\ forall r, proper_w (f r)
  | WElem n b => ncname (xn_local n) /\ proper_b b
  | WFinish f => forall r, proper_w (f r)
  | WDrop p' => proper_w p'
  end
with proper_b {d} (q : bprog d) : Prop :=
  match q with
  | BNs p u q' => prefix_wf p /\ xml_text u /\ proper_b q'
  | BAttr n v f => ncname (xn_local n) /\ xml_text v /\ forall r, proper_b (f r)
  | BDrop p => proper_w p
  | BStart p pe => proper_w p /\ forall e, proper_w (pe e)
  | BPanic _ => True
  end.

(** ** Derived types *)

(** [holds env t v t' x]: the value [v] of the type [t] has the value [x] of the text type [t'] in it. *)
Inductive holds (env : tenv) : ety -> value -> tty -> tval -> Prop :=
| ho_text : forall t x, holds env (EText t) (VText x) t x
| ho_attribute : forall id ident root nss fs vs j f opt t x, env id = Some (TDStruct ident root nss fs) ->
    nth_error fs j = Some f -> f_mode f = MAttribute opt t ->
    nth_error vs j = Some (if opt then VSome (VText x) else VText x) -> holds env (ERef id) (VStruct vs) t x
| ho_element : forall id ident root nss fs vs j f k t' v l w t x, env id = Some (TDStruct ident root nss fs) ->
    nth_error fs j = Some f -> f_mode f = MElement k t' -> nth_error vs j = Some v -> items k v l -> In w l ->
    holds env t' w t x -> holds env (ERef id) (VStruct vs) t x
| ho_flatten : forall id ident root nss fs vs j f id' v t x, env id = Some (TDStruct ident root nss fs) ->
    nth_error fs j = Some f -> f_mode f = MFlatten id' -> nth_error vs j = Some v ->
    holds env (ERef id') v t x -> holds env (ERef id) (VStruct vs) t x
| ho_variant : forall id ident root nss vs sk i w k t' p l u t x, env id = Some (TDEnum ident root nss vs sk) ->
    nth_error (sorted_variants vs) i = Some w -> v_ty w = Some (k, t') -> items k p l -> In u l ->
    holds env t' u t x -> holds env (ERef id) (VEnum i (Some p)) t x.

(** The names the declarations of the types give, and the namespaces. *)
Definition names_wf (env : tenv) : Prop := forall id d, env id = Some d ->
  ncname (xn_local (expanded (td_root d))) /\
  (forall p u, In (p, u) (td_nss d) -> prefix_wf p /\ xml_text u) /\
  match d with
  | TDStruct _ _ _ fs => forall f, In f fs -> ncname (n_local (f_name f))
  | TDEnum _ _ _ vs _ => forall w, In w vs -> ncname (n_local (v_name w))
  end.

(** ** Rust identifiers of ASCII characters, other than raw ones *)
Definition ascii_ident (s : string) : Prop := exists c cs, s = str_of (utf8 (c :: cs)) /\
  (0x41 <= c <= 0x5A \/ c = 0x5F \/ 0x61 <= c <= 0x7A)%N /\
  Forall (fun c => 0x41 <= c <= 0x5A \/ c = 0x5F \/ 0x61 <= c <= 0x7A \/ 0x30 <= c <= 0x39)%N cs.

(** Every text printed for a value of the type is made of XML characters. *)
Definition prints_xml (o : oracles) (t : tty) : Prop := forall x s, to_text o t x = Some s -> xml_text s.

(** ** Texts of a document *)

Inductive text_in : node -> string -> Prop :=
| ti_attribute : forall name attrs ns p kids pe a, In a attrs -> text_in (NElem name attrs ns p kids pe) (a_value a)
| ti_content : forall name attrs ns p kids pe, text_in (NElem name attrs ns p kids pe) (text_of kids)
| ti_below : forall name attrs ns p kids pe c s, In c kids -> text_in c s -> text_in (NElem name attrs ns p kids pe) s.

(** The texts in the value of a field. *)
Inductive field_has (env : tenv) (f : field) : value -> tty -> tval -> Prop :=
| fx_attribute : forall (opt : bool) t x, f_mode f = MAttribute opt t ->
    field_has env f (if opt then VSome (VText x) else VText x) t x
| fx_element : forall k t' v l w t x, f_mode f = MElement k t' -> items k v l -> In w l -> holds env t' w t x ->
    field_has env f v t x.

(** The texts in the default values of fields. *)
Definition default_has (env : tenv) (t : tty) (x : tval) : Prop := exists id ident root nss fs f v,
  env id = Some (TDStruct ident root nss fs) /\ In f fs /\ f_default f = Some v /\ field_has env f v t x.

(** What the type makes of a text of XML characters prints as one. *)
Definition keeps_xml (o : oracles) (t : tty) : Prop :=
  forall s x s', xml_text s -> parse_text o t s = Ok x -> to_text o t x = Some s' -> xml_text s'.

(** All characters of a document's attributes and texts. *)
Inductive node_xml : node -> Prop :=
| nx_elem : forall name attrs ns p kids pe, Forall (fun a => xml_text (a_value a)) attrs -> Forall node_xml kids ->
    node_xml (NElem name attrs ns p kids pe)
| nx_text : forall cdata s p, xml_text s -> node_xml (NText cdata s p)
| nx_misc : forall m p, node_xml (NMisc m p)
| nx_blank : forall s p, node_xml (NBlank s p).
