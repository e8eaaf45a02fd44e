(** * Events: tokens, the element stack, entity references and [Validator::validate].
    relaxng-validator/src/lib.rs:10-24, 522-560, 617-863, 1455-1652.

    Simplifications: [StrSpan] is its string; spans are kept only where an error reports them
    (text tokens carry the byte offset of their start).  The XML tokenizer itself is not modelled:
    the input is the stream of results of [tokenizer.next()]. *)
From Verif Require Import Base Datatype Store Deriv.
Open Scope monad_scope.

(** ** Tokens ([xmlparser::Token]) *)
Inductive element_end : Type := EndOpen | EndClose (prefix local : str) | EndEmpty.
Inductive token : Type :=
| TDeclaration
| TProcessingInstruction (target : str)
| TComment (text : str)
| TDtdStart (name : str)
| TEmptyDtd (name : str)
| TDtdEnd
| TEntityDeclaration (name : str) (definition : option str)  (* [None]: an external id *)
| TElementStart (prefix local : str)
| TAttribute (prefix local value : str)
| TElementEnd (e : element_end)
| TText (start : nat) (text : str)
| TCdata (text : str).

(** lib.rs:10-24 [ValidatorError] *)
Inductive verror : Type :=
| EXml
| ENotAllowed (t : token)
| EUndefinedPrefix (prefix : str)
| EUndefinedEntity (name : str) (lo hi : nat)
| EInvalidEntity (lo hi : nat).

(** ** Entity references in text *)
(** lib.rs:1455-1460 [Txt] *)
Inductive txt : Type :=
| TxText (pos : nat) (s : str)
| TxEntity (pos : nat) (name : str)
| TxChar (pos : nat) (c : N).

(** [u32::from_str_radix(text, radix)]: optional '+', at least one digit, no overflow.
    ([str::parse::<u32>] is radix 10.) *)
Definition digit_val (radix c : N) : option N :=
  let v := (if (48 <=? c) && (c <=? 57) then Some (c - 48)
            else if (97 <=? c) && (c <=? 122) then Some (c - 87)
            else if (65 <=? c) && (c <=? 90) then Some (c - 55)
            else None)%N in
  match v with Some d => if (d <? radix)%N then Some d else None | None => None end.
Fixpoint digits_val (radix : N) (acc : N) (s : str) : option N :=
  match s with
  | [] => Some acc
  | c :: s' => match digit_val radix c with
               | Some d => digits_val radix (acc * radix + d)%N s'
               | None => None
               end
  end.
Definition parse_u32 (radix : N) (s : str) : option N :=
  let body := match s with c :: s' => if (c =? 43)%N then s' else s | [] => s end in
  match body with
  | [] => None
  | _ => match digits_val radix 0 body with
         | Some n => if (n <? 4294967296)%N then Some n else None
         | None => None
         end
  end.
(** [char::from_u32] *)
Definition char_from_u32 (n : N) : option N :=
  if ((n <? 55296) || ((57344 <=? n) && (n <? 1114112)))%N then Some n else None.

(** lib.rs:1515-1537 [numeric_entity]; [pos] is the offset inside the token. *)
Definition numeric_entity (pos : nat) (text : str) : txt + verror :=
  match text with
  | [] => inr (EInvalidEntity pos pos)
  | c :: rest =>
      if (c =? 120)%N then
        match rest with
        | [] => inr (EInvalidEntity (pos + 1) (pos + 1))
        | _ => match parse_u32 16 rest with
               | None => inr (EInvalidEntity (pos + 1) (pos + 1))
               | Some n => match char_from_u32 n with
                           | Some ch => inl (TxChar pos ch)
                           | None => inr (EInvalidEntity pos pos)
                           end
               end
        end
      else match parse_u32 10 text with
           | None => inr (EInvalidEntity pos pos)
           | Some n => match char_from_u32 n with
                       | Some ch => inl (TxChar pos ch)
                       | None => inr (EInvalidEntity pos pos)
                       end
           end
  end.

(** lib.rs:1465-1514 [parse_entities]: the items the iterator yields.  [off] is the byte offset of
    the pending run, [cur] the pending run reversed.  A reference left open when the text ends in
    the middle of a name yields an error; a text ending right after '&' yields nothing more. *)
Fixpoint parse_entities (pos off : nat) (in_entity : bool) (cur : str) (rest : str) : list (txt + verror) :=
  match rest with
  | [] =>
      match cur with
      | [] => []
      | _ => if in_entity then [inr (EInvalidEntity (pos + off - 1) (pos + off))]
             else [inl (TxText (off + pos) (rev cur))]
      end
  | c :: rest' =>
      if in_entity then
        if (c =? 59)%N then
          let text := rev cur in
          let item := match text with
                      | h :: t => if (h =? 35)%N then numeric_entity off t else inl (TxEntity (off + pos) text)
                      | [] => inl (TxEntity (off + pos) text)
                      end in
          item :: parse_entities pos (off + utf8_len text + 1) false [] rest'
        else parse_entities pos off in_entity (c :: cur) rest'
      else if (c =? 38)%N then
        let text := rev cur in
        inl (TxText (off + pos) text) :: parse_entities pos (off + utf8_len text + 1) true [] rest'
      else parse_entities pos off in_entity (c :: cur) rest'
  end.

Fixpoint lookup_str (k : str) (l : list (str * str)) : option str :=
  match l with
  | [] => None
  | (k', v) :: l' => if str_eqb k' k then Some v else lookup_str k l'
  end.

(** lib.rs:732-771: the loop filling [buffer]; stops at the first error, and breaks out when a
    piece has the byte length of the whole token. *)
Fixpoint fill_buffer (ents : list (str * str)) (textlen : nat) (buffer : str) (items : list (txt + verror))
  : str + verror :=
  match items with
  | [] => inl buffer
  | inr e :: _ => inr e
  | inl (TxChar _ c) :: rest => fill_buffer ents textlen (buffer ++ [c]) rest
  | inl (TxText _ v) :: rest =>
      if Nat.eqb (utf8_len v) textlen then inl buffer else fill_buffer ents textlen (buffer ++ v) rest
  | inl (TxEntity pos name) :: rest =>
      match lookup_str name ents with
      | None => inr (EUndefinedEntity name pos (pos + utf8_len name))
      | Some v =>
          if Nat.eqb (utf8_len v) textlen then inl buffer else fill_buffer ents textlen (buffer ++ v) rest
      end
  end.
(** lib.rs:732-776: the string a text token stands for. *)
Definition text_data (ents : list (str * str)) (start : nat) (text : str) : str + verror :=
  match fill_buffer ents (utf8_len text) [] (parse_entities start 0 false [] text) with
  | inr e => inr e
  | inl [] => inl text
  | inl b => inl b
  end.

(** ** Element stack *)
(** lib.rs:1627-1652 [ElementState], [UnresolvedAttr], [Ns]; vectors in source order. *)
Record elstate : Type := ElState {
  e_prefix : str;
  e_local : str;
  e_ns : list (str * str);
  e_atts : list (str * str * str)
}.
(** lib.rs:1553-1556 [ElementStack]: newest element first (the Rust vector grows at the end).
    Nothing ever removes an element. *)
Definition elstack := list elstate.

(** lib.rs:1559-1564, 1641-1648 [lookup_namespace_uri] *)
Fixpoint lookup_ns (stk : elstack) (prefix : str) : option str :=
  match stk with
  | [] => None
  | e :: stk' => match lookup_str prefix (e_ns e) with Some u => Some u | None => lookup_ns stk' prefix end
  end.
(** lib.rs:1566-1577 [try_lookup_namespace_uri] *)
Definition try_lookup_ns (stk : elstack) (prefix : str) : option str + verror :=
  match prefix with
  | [] => inl None
  | _ => match lookup_ns stk prefix with
         | Some u => inl (Some u)
         | None => inr (EUndefinedPrefix prefix)
         end
  end.
(** lib.rs:1579-1586 *)
Definition stack_push (stk : elstack) (prefix local : str) : elstack := ElState prefix local [] [] :: stk.
Definition xmlns : str := [120; 109; 108; 110; 115]%N.
(** lib.rs:1587-1616 [add_attr] *)
Definition add_attr (stk : elstack) (prefix local value : str) : res elstack :=
  match stk with
  | [] => Panic PUnwrapNone
  | e :: stk' =>
      Ok ((if str_eqb prefix xmlns then
             ElState (e_prefix e) (e_local e) (e_ns e ++ [(local, value)]) (e_atts e)
           else if str_eqb prefix [] && str_eqb local xmlns then
             ElState (e_prefix e) (e_local e) (e_ns e ++ [(prefix, value)]) (e_atts e)
           else ElState (e_prefix e) (e_local e) (e_ns e) (e_atts e ++ [(prefix, local, value)])) :: stk')
  end.
(** lib.rs:1617-1624 [current_element] *)
Definition current_element (stk : elstack) : res (qname + verror) :=
  match stk with
  | [] => Panic PUnwrapNone
  | e :: _ => match try_lookup_ns stk (e_prefix e) with
              | inl u => Ok (inl (QName u (e_local e)))
              | inr err => Ok (inr err)
              end
  end.
Fixpoint resolve_attrs (stk : elstack) (l : list (str * str * str)) : list attr + verror :=
  match l with
  | [] => inl []
  | (p, loc, v) :: l' =>
      match (match p with [] => inl None | _ => try_lookup_ns stk p end) with
      | inr err => inr err
      | inl u => match resolve_attrs stk l' with
                 | inr err => inr err
                 | inl r => inl (Attr (QName u loc) v :: r)
                 end
      end
  end.
(** lib.rs:1625-1650 [current_attributes] *)
Definition current_attributes (stk : elstack) : res (list attr + verror) :=
  match stk with
  | [] => Panic PUnwrapNone
  | e :: _ => Ok (resolve_attrs stk (e_atts e))
  end.

(** ** The validator *)
(** lib.rs:522-529 [Validator] (the tokenizer is the argument of [run]). *)
Record validator : Type := Validator {
  v_store : store;
  v_cur : pid;
  v_last : bool;                 (* last_was_start_element *)
  v_stack : elstack;
  v_ents : list (str * str)      (* newest binding first *)
}.
Definition initial_entities : list (str * str) :=
  [ ([108; 116], [60]); ([103; 116], [62]); ([97; 109; 112], [38]);
    ([97; 112; 111; 115], [39]); ([113; 117; 111; 116], [34]) ]%N.

Section WithOracles.
Variable O : oracles.

Definition or_empty (u : option str) : str := match u with Some s => s | None => [] end.

(** lib.rs:842-855: the loop over the attributes. *)
Fixpoint atts_deriv (fuel : nat) (p : pid) (atts : list attr) : M (pid + verror) :=
  match atts with
  | [] => ret (inl p)
  | att :: rest =>
      let* r := att_deriv O fuel [] p att in
      let p' := fst r in
      let* x := patt p' in
      if is_not_allowed x then
        ret (inr (ENotAllowed (TAttribute (or_empty (q_ns (a_name att))) (q_local (a_name att)) (a_value att))))
      else atts_deriv fuel p' rest
  end.

(** lib.rs:820-863 [close_element_start] *)
Definition close_element_start (fuel : nat) (stk : elstack) (evt : token) (p : pat) : M (pid + verror) :=
  let* nm := lift (current_element stk) in
  match nm with
  | inr e => ret (inr e)
  | inl name =>
      let* d := start_tag_open_deriv fuel p name in
      let* x := patt d in
      if is_not_allowed x then
        ret (inr (ENotAllowed (TElementStart (or_empty (q_ns name)) (q_local name))))
      else
        let* al := lift (current_attributes stk) in
        match al with
        | inr e => ret (inr e)
        | inl atts =>
            let* r := atts_deriv fuel d atts in
            match r with
            | inr e => ret (inr e)
            | inl q =>
                let* y := patt q in
                if is_not_allowed y then ret (inr (ENotAllowed evt))
                else
                  let* c := start_tag_close_deriv fuel q in
                  let* z := patt c in
                  if is_not_allowed z then ret (inr (ENotAllowed evt)) else ret (inl c)
            end
        end
  end.

(** lib.rs:681-698 and 700-717: the end of an element, with the (dead) empty-text step. *)
Definition end_element (fuel : nat) (last : bool) (p : pat) : M pid :=
  let* q := (if last then let* d := text_deriv O fuel p [] in patt d else ret p) in
  end_tag_deriv fuel q.

(** The pattern part of [validate] (lib.rs:645-818).  [inl None]: early [return Ok(())];
    [inl (Some new)]: falls through with [new]; [inr e]: early [return Err(e)]. *)
Definition validate_step (fuel : nat) (v : validator) (evt : token) : M (option pid + verror) :=
  let* p := patt (v_cur v) in
  match evt with
  | TElementEnd EndOpen =>
      let* r := close_element_start fuel (v_stack v) evt p in
      match r with inl i => ret (inl (Some i)) | inr e => ret (inr e) end
  | TElementEnd (EndClose _ _) =>
      let* i := end_element fuel (v_last v) p in ret (inl (Some i))
  | TElementEnd EndEmpty =>
      let* r := close_element_start fuel (v_stack v) evt p in
      match r with
      | inr e => ret (inr e)
      | inl i => let* q := patt i in
                 let* i' := end_element fuel (v_last v) q in ret (inl (Some i'))
      end
  | TCdata s => let* i := text_deriv O fuel p s in ret (inl (Some i))
  | TText start text =>
      match text_data (v_ents v) start text with
      | inr e => ret (inr e)
      | inl data =>
          let* i := text_deriv O fuel p data in
          let* x := patt i in
          if is_not_allowed x then ret (inr (ENotAllowed evt)) else ret (inl (Some i))
      end
  | TEntityDeclaration _ None => ret (inr (ENotAllowed evt))
  | _ => ret (inl None)
  end.

(** The effects of a token on the element stack and the entity table (lib.rs:655-672, 787-792). *)
Definition stack_effect (v : validator) (evt : token) : res validator :=
  match evt with
  | TElementStart prefix local =>
      Ok (Validator (v_store v) (v_cur v) (v_last v) (stack_push (v_stack v) prefix local) (v_ents v))
  | TAttribute prefix local value =>
      rbind (add_attr (v_stack v) prefix local value) (fun stk =>
        Ok (Validator (v_store v) (v_cur v) (v_last v) stk (v_ents v)))
  | TEntityDeclaration name (Some val) =>
      Ok (Validator (v_store v) (v_cur v) (v_last v) (v_stack v) ((name, val) :: v_ents v))
  | _ => Ok v
  end.

(** lib.rs:644-818 [validate]: the state after the token and the result. *)
Definition validate (fuel : nat) (v : validator) (evt : token) : res (validator * option verror) :=
  rbind (validate_step fuel v evt (v_store v)) (fun '(r, st) =>
  rbind (stack_effect v evt) (fun v' =>
    match r with
    | inr e => Ok (Validator st (v_cur v') (v_last v') (v_stack v') (v_ents v'), Some e)
    | inl None => Ok (Validator st (v_cur v') (v_last v') (v_stack v') (v_ents v'), None)
    | inl (Some new) =>
        (* lib.rs:803-807: evt is never an ElementStart here *)
        let last := match evt with TElementStart _ _ => true | _ => false end in
        rbind (patt new st) (fun '(x, st) =>
          if is_not_allowed x
          then Ok (Validator st (v_cur v') last (v_stack v') (v_ents v'), Some (ENotAllowed evt))
          else Ok (Validator st new last (v_stack v') (v_ents v'), None))
    end)).

(** lib.rs:617-623 [validate_next]; [None] as event: the tokenizer reported an XML error. *)
Definition validate_next (fuel : nat) (v : validator) (evt : option token) : res (validator * option verror) :=
  match evt with Some t => validate fuel v t | None => Ok (v, Some EXml) end.

(** A caller's loop: validate until the first error (as in relaxng-tool main.rs and the tests). *)
Fixpoint run (fuel : nat) (v : validator) (toks : list token) : res (validator * option verror) :=
  match toks with
  | [] => Ok (v, None)
  | t :: rest =>
      rbind (validate fuel v t) (fun '(v', e) =>
        match e with Some err => Ok (v', Some err) | None => run fuel v' rest end)
  end.

End WithOracles.
