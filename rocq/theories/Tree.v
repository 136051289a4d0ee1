(** Model of src/parser/tree.rs. *)
From Verif Require Import Base Tokens Syntax.

(** tree.rs 33-43: [Tree] and [Child] merged into one type; [CTree k cs] is
    [Child::Tree(Tree { kind: k, children: cs })]. *)
Inductive child :=
| CTok (t : token)
| CTree (k : skind) (cs : list child).

(** A tree under construction: kind and children pushed so far (reversed). *)
Definition frame := (skind * list child)%type.

(** tree.rs 12-26: the loop of [build_tree]. *)
Fixpoint build_loop (evs : list event) (toks : list token) (stack : list frame)
  : res (list token * list frame) :=
  match evs with
  | [] => Ok (toks, stack)
  | Enter k :: evs' => build_loop evs' toks ((k, []) :: stack)
  | Exit :: evs' =>
      match stack with
      | [] => Panic PUnwrap
      | (k, []) :: stack' => build_loop evs' toks stack'
      | (k, cs) :: stack' =>
          match stack' with
          | [] => Panic PUnwrap
          | (k', cs') :: stack'' =>
              build_loop evs' toks ((k', CTree k (rev cs) :: cs') :: stack'')
          end
      end
  | Advance :: evs' =>
      match toks with
      | [] => Panic PUnwrap
      | t :: toks' =>
          match stack with
          | [] => Panic PUnwrap
          | (k, cs) :: stack' => build_loop evs' toks' ((k, CTok t :: cs) :: stack')
          end
      end
  end.

(** tree.rs 4-31: [build_tree]. The result is always a [CTree]. *)
Definition build_tree (toks : list token) (evs : list event) : res child :=
  match rev evs with
  | Exit :: evs' =>
      '(toks', stack) <- build_loop (rev evs') toks [] ;;
      match toks', stack with
      | [], [(k, cs)] => Ok (CTree k (rev cs))
      | _, _ => Panic PTree
      end
  | _ => Panic PTree
  end.

(** tree.rs 62-67: [Tree::start] (on a [Child]: the token itself or the first
    token of the tree). [None] is the panic of [unwrap]. *)
Fixpoint start_of (c : child) : option token :=
  match c with
  | CTok t => Some t
  | CTree _ cs => match cs with [] => None | c' :: _ => start_of c' end
  end.

(** tree.rs 69-74: [Tree::end] *)
Fixpoint end_of (c : child) : option token :=
  match c with
  | CTok t => Some t
  | CTree _ cs =>
      (fix last (l : list child) : option token :=
         match l with
         | [] => None
         | [c'] => end_of c'
         | _ :: l' => last l'
         end) cs
  end.

(** tree.rs 76-80: [Tree::is_multiline] *)
Definition is_multiline (c : child) : option bool :=
  match start_of c, end_of c with
  | Some a, Some b => Some (line (tstart a) <? line (tend b))
  | _, _ => None
  end.

(** tree.rs 82-97: [Tree::contains] *)
Fixpoint contains (k : skind) (c : child) : bool :=
  match c with
  | CTok _ => false
  | CTree _ cs =>
      (fix any (l : list child) : bool :=
         match l with
         | [] => false
         | CTok _ :: l' => any l'
         | CTree k' cs' as c' :: l' =>
             (if skind_eqb k' k then true else contains k c') || any l'
         end) cs
  end.
