(** A type for whole documents, written against the public API: what README.md 96-98 plans for
    [xmltree::Element].  It is user code, not code of /repo: it shows what the API suffices for. *)
From Verif Require Import Base Reader Ser SerSpec.

(** ** [Deserialize] and [ElementVisitor]

    The traits are those of de/mod.rs 667-669, 777-818.  The visitor collects the attributes and the children,
    the latest first; a piece of text that follows another one is appended to it. *)
Record building := Building { b_attributes : list (xname * string); b_children : list wtree }.

Definition fresh : building := Building [] [].

Definition add_piece (s : string) (l : list wtree) : list wtree :=
  if String.eqb s "" then l
  else match l with
       | TText s0 :: l' => TText (s0 ++ s) :: l'
       | _ => TText s :: l
       end.

Definition finished (n : xname) (b : building) : wtree :=
  TElem n (rev (b_attributes b)) (rev (b_children b)).

Definition dom_visitor : visitors building := {|
  v_attribute := fun b n v => (Ok None, Building ((n, v) :: b_attributes b) (b_children b));
  v_characters := fun b s _ => (Ok None, Building (b_attributes b) (add_piece s (b_children b)));
  v_element := fun b i =>
    AReadTo fresh (fun r b' =>
      match r with
      | inl _ => (Ok false, Building (b_attributes b) (finished (from_xml_name (ei_name i)) b' :: b_children b))
      | inr e => (Err e, b)
      end);
|}.

Definition dom_deserialize (i : einfo) : action building (res verr wtree) :=
  AReadTo fresh (fun r b =>
    match r with
    | inl _ => Ok (finished (from_xml_name (ei_name i)) b)
    | inr e => Err e
    end).

(** ** [Serialize]

    The trait is that of ser/mod.rs 494-501.  Every element asks for a prefix for each namespace that it
    or one of its attributes is in; [px] gives the prefixes. Errors are handed on with [?]. *)
Section Write.
  Context (px : string -> string).

  Definition needs (u : string) : bool := negb (String.eqb u "" || String.eqb u XML_NS).

  Definition urls (n : xname) (attrs : list (xname * string)) : list string :=
    filter needs (xn_ns n :: map (fun a => xn_ns (fst a)) attrs).

  Fixpoint dom_attributes (attrs : list (xname * string)) : aprog :=
    match attrs with
    | [] => ARet None
    | (n, v) :: r =>
        AAttr n v (fun e => match e with None => dom_attributes r | Some e => ARet (Some e) end)
    end.

  Definition dom_start (n : xname) (attrs : list (xname * string)) : aprog :=
    fold_right (fun u => ANs (px u) u) (dom_attributes attrs) (urls n attrs).

  (** [return Err(e)]: the writers of the open elements are dropped. *)
  Fixpoint give_up (d : nat) (e : serr) : wprog d :=
    match d with
    | O => WRet (Some e)
    | S d => WDrop (give_up d e)
    end.

  Definition or_give_up {d} (k : wprog d) (r : option serr) : wprog d :=
    match r with None => k | Some e => give_up d e end.

  Fixpoint dom_child (t : wtree) (d : nat) (k : wprog d) : wprog d :=
    match t with
    | TText s => WText s (or_give_up k)
    | TElem n attrs kids =>
        WElem n (embed (dom_start n attrs) (fun r =>
          match r with
          | None => BStart (fold_right (fun c => dom_child c (S d)) (WFinish (or_give_up k)) kids)
                           (give_up d)
          | Some e => BDrop (give_up d e)
          end))
    end.

  Definition dom_children (kids : list wtree) : wprog 0 :=
    fold_right (fun c => dom_child c 0) (WRet None) kids.

  Definition dom_serialize (n : xname) (attrs : list (xname * string)) (kids : list wtree) : serialize :=
    Ser (dom_start n attrs) (dom_children kids).
End Write.

(** Prefixes for all namespaces: [n] and the bytes of the URL in letters. *)
Definition letter (n : nat) : ascii := ascii_of_nat (97 + n).
Fixpoint in_letters (s : string) : string :=
  match s with
  | EmptyString => EmptyString
  | String c r => String (letter (nat_of_ascii c / 16)) (String (letter (nat_of_ascii c mod 16)) (in_letters r))
  end.
Definition px_letters (u : string) : string := String "n" (in_letters u).
