(** * Doc: documents as trees, their token stream, and the code's reading of them.

    A document tree keeps what the source text says: prefixes, attributes in source order
    (including namespace declarations), raw text.  [tokens_of] is the token stream xmlparser
    delivers for it.  [cview] is the content as relaxng-validator resolves it (lib.rs:1553-1652):
    prefixes are looked up in all elements started so far, unprefixed names are in no namespace. *)
From Verif Require Import Base Datatype Store Deriv Events Lang.

Inductive xnode : Type :=
| XText (start : nat) (raw : str)
| XCdata (s : str)
| XComment (s : str)
| XPI (s : str)
| XElem (prefix local : str) (atts : list (str * str * str)) (selfclose : bool) (kids : list xnode).

Lemma xnode_ind' (P : xnode -> Prop) :
  (forall st r, P (XText st r)) -> (forall s, P (XCdata s)) -> (forall s, P (XComment s)) -> (forall s, P (XPI s)) ->
  (forall p l a sc kids, Forall P kids -> P (XElem p l a sc kids)) -> forall x, P x.
Proof.
  intros H1 H2 H3 H4 H5. fix IH 1; intros [st r|s|s|s|p l a sc kids]; [apply H1|apply H2|apply H3|apply H4|].
  apply H5. induction kids as [|k ks IHk]; constructor; [apply IH | exact IHk].
Qed.

Definition att_token (a : str * str * str) : token := let '(p, l, v) := a in TAttribute p l v.
Definition is_nil {A} (l : list A) : bool := match l with [] => true | _ => false end.

Fixpoint tokens_of (x : xnode) : list token :=
  match x with
  | XText st r => [TText st r]
  | XCdata s => [TCdata s]
  | XComment s => [TComment s]
  | XPI s => [TProcessingInstruction s]
  | XElem p l a sc kids =>
      TElementStart p l :: map att_token a ++
      (if sc && is_nil kids then [TElementEnd EndEmpty]
       else TElementEnd EndOpen :: flat_map tokens_of kids ++ [TElementEnd (EndClose p l)])
  end.

(** Tokens that may occur around the root element. *)
Definition misc_token (t : token) : Prop :=
  match t with
  | TDeclaration | TProcessingInstruction _ | TComment _ | TDtdStart _ | TEmptyDtd _ | TDtdEnd
  | TEntityDeclaration _ (Some _) => True
  | _ => False
  end.
Record xdoc : Type := XDoc { d_prolog : list token; d_root : xnode; d_epilog : list token }.
Definition doc_tokens (d : xdoc) : list token := d_prolog d ++ tokens_of (d_root d) ++ d_epilog d.
Definition doc_wf (d : xdoc) : Prop :=
  Forall misc_token (d_prolog d) /\ Forall misc_token (d_epilog d) /\
  match d_root d with XElem _ _ _ _ _ => True | _ => False end.

(** ** The code's view *)
Definition is_nsdecl (a : str * str * str) : bool :=
  let '(p, l, _) := a in str_eqb p xmlns || (str_eqb p [] && str_eqb l xmlns).
Fixpoint ns_decls (l : list (str * str * str)) : list (str * str) :=
  match l with
  | [] => []
  | (p, loc, v) :: l' =>
      if str_eqb p xmlns then (loc, v) :: ns_decls l'
      else if str_eqb p [] && str_eqb loc xmlns then ([], v) :: ns_decls l'
      else ns_decls l'
  end.
Definition plain_atts (l : list (str * str * str)) : list (str * str * str) :=
  filter (fun a => negb (is_nsdecl a)) l.
Definition el_of (p l : str) (a : list (str * str * str)) : elstate := ElState p l (ns_decls a) (plain_atts a).

(** elements started in [x], newest first *)
Fixpoint elems_of (x : xnode) : elstack :=
  match x with
  | XElem p l a _ kids =>
      (fix go (ks : list xnode) : elstack := match ks with [] => [] | k :: ks' => go ks' ++ elems_of k end) kids
      ++ [el_of p l a]
  | _ => []
  end.
Fixpoint elems_list (ks : list xnode) : elstack :=
  match ks with [] => [] | k :: ks' => elems_list ks' ++ elems_of k end.

Fixpoint cview (ents : list (str * str)) (stk : elstack) (x : xnode) : option (list item) :=
  match x with
  | XText start raw => match text_data ents start raw with inl s => Some [Txt s] | inr _ => None end
  | XCdata s => Some [Txt s]
  | XComment _ | XPI _ => Some []
  | XElem p l a _ kids =>
      let stk' := el_of p l a :: stk in
      match try_lookup_ns stk' p with
      | inr _ => None
      | inl u =>
          match resolve_attrs stk' (plain_atts a) with
          | inr _ => None
          | inl atts =>
              match (fix go (stk : elstack) (ks : list xnode) : option (list item) :=
                       match ks with
                       | [] => Some []
                       | k :: ks' => match cview ents stk k with
                                     | None => None
                                     | Some w => match go (elems_of k ++ stk) ks' with
                                                 | None => None
                                                 | Some w' => Some (w ++ w')
                                                 end
                                     end
                       end) stk' kids with
              | None => None
              | Some ks => Some [Elm (QName u l) atts ks]
              end
          end
      end
  end.
Fixpoint cviews (ents : list (str * str)) (stk : elstack) (ks : list xnode) : option (list item) :=
  match ks with
  | [] => Some []
  | k :: ks' => match cview ents stk k with
                | None => None
                | Some w => match cviews ents (elems_of k ++ stk) ks' with
                            | None => None
                            | Some w' => Some (w ++ w')
                            end
                end
  end.

(** entity table after a prolog *)
Fixpoint ents_after (ents : list (str * str)) (ts : list token) : list (str * str) :=
  match ts with
  | [] => ents
  | TEntityDeclaration n (Some v) :: ts' => ents_after ((n, v) :: ents) ts'
  | _ :: ts' => ents_after ents ts'
  end.

(** Content restriction of the main theorem: within every element that may have data content ([tq] bounds the content types by the element's name) no
    two adjacent chunks of character data. *)
Definition tsep (t : ctype) (w : list item) : Prop := t = TA -> sep w.
Section ItemOk.
Variable tq : qname -> ctype.
Fixpoint item_ok (i : item) : Prop :=
  match i with
  | Txt _ => True
  | Elm nm atts kids =>
      tsep (tq nm) kids /\
      (fix go (ks : list item) : Prop := match ks with [] => True | k :: ks' => item_ok k /\ go ks' end) kids
  end.
Fixpoint items_ok (ks : list item) : Prop :=
  match ks with [] => True | k :: ks' => item_ok k /\ items_ok ks' end.
End ItemOk.
