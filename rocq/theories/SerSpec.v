(** What a program asks the serialization API for, as a tree; and namespaces of XML. *)
From Verif Require Import Base Ser.

(** ** Trees *)

(** An element with its expanded name, or text. *)
Inductive wtree :=
| TElem (n : xname) (attrs : list (xname * string)) (kids : list wtree)
| TText (s : string).

(** A start tag as asked for: the namespace mappings and attributes, in the order of the calls. *)
Inductive req := ReqNs (p u : string) | ReqAttr (n : xname) (v : string).

(** A tree as asked for. *)
Inductive rtree :=
| RElem (n : xname) (reqs : list req) (kids : list rtree)
| RText (s : string).

Fixpoint req_attrs (l : list req) : list (xname * string) :=
  match l with
  | [] => []
  | ReqAttr n v :: l' => (n, v) :: req_attrs l'
  | ReqNs _ _ :: l' => req_attrs l'
  end.

Fixpoint tree_of (t : rtree) : wtree :=
  match t with
  | RElem n reqs kids => TElem n (req_attrs reqs) (map tree_of kids)
  | RText s => TText s
  end.

(** ** What a program asks for, when every call does what it says

    No events, no namespace bookkeeping, no output. [None]: the program panics, returns an error, or
    drops a builder or writer. *)
Record frame := Frame { fr_name : xname; fr_reqs : list req; fr_kids : list rtree }.

Definition attr_value (n : xname) (l : list req) : option string :=
  option_map snd (find (fun a => xn_eqb (fst a) n) (req_attrs l)).

(** An attribute may be given once; a second one is an error and changes nothing. *)
Definition add_attr (n : xname) (v : string) (l : list req) : option serr * list req :=
  match attr_value n l with
  | Some old => (Some (SDuplicate n old v), l)
  | None => (None, l ++ [ReqAttr n v])
  end.

Fixpoint ask_a (a : aprog) (l : list req) : option (list req) :=
  match a with
  | ARet None => Some l
  | ARet (Some _) => None
  | ANs p u a' => ask_a a' (l ++ [ReqNs p u])
  | AAttr n v f => let '(r, l') := add_attr n v l in ask_a (f r) l'
  | APanic _ => None
  end.

(** [root]: the children of the element itself so far. [st]: the nested open elements, the innermost
    first. *)
Definition add_kid (t : rtree) (root : list rtree) (st : list frame) : list rtree * list frame :=
  match st with
  | [] => (root ++ [t], [])
  | f :: st' => (root, Frame (fr_name f) (fr_reqs f) (fr_kids f ++ [t]) :: st')
  end.

Fixpoint ask_w {d} (p : wprog d) (root : list rtree) (st : list frame) : option (list rtree) :=
  match p with
  | WRet None => Some root
  | WRet (Some _) => None
  | WText s f => let '(root', st') := add_kid (RText s) root st in ask_w (f None) root' st'
  | WElem n b => ask_b b n [] root st
  | WFinish f =>
      match st with
      | [] => None
      | fr :: st' =>
          let '(root', st'') := add_kid (RElem (fr_name fr) (fr_reqs fr) (fr_kids fr)) root st' in
          ask_w (f None) root' st''
      end
  | WDrop _ | WPanic _ => None
  end
with ask_b {d} (q : bprog d) (n : xname) (l : list req) (root : list rtree) (st : list frame)
  : option (list rtree) :=
  match q with
  | BNs p u q' => ask_b q' n (l ++ [ReqNs p u]) root st
  | BAttr a v f => let '(r, l') := add_attr a v l in ask_b (f r) n l' root st
  | BDrop _ | BPanic _ => None
  | BStart p _ => ask_w p root (Frame n l [] :: st)
  end.

Definition asked (n : xname) (v : serialize) : option rtree :=
  match ask_a (s_attrs v) [] with
  | None => None
  | Some l => option_map (RElem n l) (ask_w (s_kids v) [] [])
  end.

(** ** Events as local names, values and structure *)
Inductive sev := SStart (local : string) (attrs : list (string * string)) | SChars (s : string) | SEnd.

Fixpoint tree_sevs (t : wtree) : list sev :=
  match t with
  | TElem n attrs kids =>
      SStart (xn_local n) (map (fun a => (xn_local (fst a), snd a)) attrs) ::
      flat_map tree_sevs kids ++ [SEnd]
  | TText s => [SChars s]
  end.

Definition ev_sev (e : wevent) : sev :=
  match e with
  | WStart n attrs _ => SStart (pn_local n) (map (fun a => (pn_local (fst a), snd a)) attrs)
  | WChars s => SChars s
  | WEnd => SEnd
  end.

(** ** Programs that ignore errors: every way to return is [Ok]. *)
Fixpoint returns_ok_a (a : aprog) : Prop :=
  match a with
  | ARet r => r = None
  | ANs _ _ a' => returns_ok_a a'
  | AAttr _ _ f => forall r, returns_ok_a (f r)
  | APanic _ => True
  end.

Fixpoint returns_ok_w {d} (p : wprog d) : Prop :=
  match p with
  | WRet r => r = None
  | WText _ f => forall r, returns_ok_w (f r)
  | WElem _ b => returns_ok_b b
  | WFinish f => forall r, returns_ok_w (f r)
  | WDrop p' => returns_ok_w p'
  | WPanic _ => True
  end
with returns_ok_b {d} (q : bprog d) : Prop :=
  match q with
  | BNs _ _ q' => returns_ok_b q'
  | BAttr _ _ f => forall r, returns_ok_b (f r)
  | BDrop p => returns_ok_w p
  | BStart p pe => returns_ok_w p /\ forall e, returns_ok_w (pe e)
  | BPanic _ => True
  end.

(** ** History *)
Definition bad (n : note) : Prop :=
  match n with NFailed _ | NDropped _ => True | NWrote _ | NRefused _ => False end.
Definition wrote (n : note) : bool := match n with NWrote _ => true | _ => false end.
Definition note_error (n : note) : option serr :=
  match n with NWrote _ => None | NFailed e | NRefused e | NDropped e => Some e end.

(** At most one failure counts: before it only successful writes, after it nothing is even
    attempted. [err]: the first failure. *)
Inductive history : list note -> option serr -> Prop :=
| h_fine : forall evs, history (map NWrote evs) None
| h_failed : forall evs n e rest, bad n -> note_error n = Some e ->
    (forall x, In x rest -> x = NRefused e \/ exists e', x = NDropped e') ->
    history (map NWrote evs ++ n :: rest) (Some e).
