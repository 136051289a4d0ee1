import re
src=open('/repo/src/parser/tokens.rs').read()
body=src.split('pub enum ModelicaToken {')[1].split('}')[0]
toks=[x.strip().rstrip(',') for x in body.strip().splitlines()]
dbg=dict(re.findall(r'ModelicaToken::(\w+) => write!\(f, "(.*?)"\)',src))
kw=dict(re.findall(r'"(\w+)" => self.generate_token\(ModelicaToken::(\w+)\)',open('/repo/src/parser/lexing.rs').read()))
out=[]
w=out.append
w('(** Token kinds and tokens: src/parser/tokens.rs. Generated by tools/gen_enums.py from the Rust enum. *)')
w('From Verif Require Import Base.\n')
w('(** tokens.rs 7-101: [enum ModelicaToken] (constructors prefixed with [T]). *)')
w('Inductive tkind :=')
w('\n'.join('| T'+t for t in toks)+'.\n')
w('Definition all_tkinds : list tkind :=\n  ['+'; '.join('T'+t for t in toks)+'].\n')
w('Definition tkind_code (k : tkind) : N :=\n  match k with\n'+'\n'.join(f'  | T{t} => {i}' for i,t in enumerate(toks))+'\n  end.\n')
w('(** derived [PartialEq] *)\nDefinition tkind_eqb (a b : tkind) : bool := N.eqb (tkind_code a) (tkind_code b).\n')
w('(** tokens.rs 103-201: [impl Debug for ModelicaToken] ([{{] is the escaped [{]). *)')
w('Definition tkind_debug (k : tkind) : string :=\n  match k with')
for t in toks:
    d=dbg[t].replace('{{','{').replace('}}','}').replace('"','""')
    w(f'  | T{t} => "{d}"')
w('  end%string.\n')
w('''(** tokens.rs 211-215 *)
Record position := mkPos { pos : N; line : N; col : N }.

(** tokens.rs 228-239 *)
Record token := mkTok {
  tidx : N;
  ttext : text;
  tkind_of : tkind;
  tstart : position;
  tend : position
}.

(** derived [PartialEq] *)
Lemma tkind_code_decode : forall k, nth (N.to_nat (tkind_code k)) all_tkinds TEOF = k.
Proof. destruct k; reflexivity. Qed.

Lemma tkind_eqb_eq : forall a b, tkind_eqb a b = true <-> a = b.
Proof.
  intros a b; unfold tkind_eqb; rewrite N.eqb_eq; split.
  - intro H. rewrite <- (tkind_code_decode a), <- (tkind_code_decode b), H. reflexivity.
  - intros ->; reflexivity.
Qed.

Lemma tkind_eqb_refl : forall a, tkind_eqb a a = true.
Proof. intro a; apply tkind_eqb_eq; reflexivity. Qed.

Lemma tkind_eq_dec : forall a b : tkind, {a = b} + {a <> b}.
Proof.
  intros a b; destruct (tkind_eqb a b) eqn:E.
  - left; apply tkind_eqb_eq; exact E.
  - right; intro H; apply tkind_eqb_eq in H; congruence.
Defined.

Lemma all_tkinds_complete : forall k, In k all_tkinds.
Proof. destruct k; cbv [all_tkinds In]; tauto. Qed.
''')
open('/verif/rocq/theories/Tokens.v','w').write('\n'.join(out))
src=open('/repo/src/parser/syntax.rs').read()
body=src.split('pub enum SyntaxKind {')[1].split('}')[0]
ks=[x.strip().rstrip(',') for x in body.strip().splitlines() if not x.strip().startswith('//')]
out=[];w=out.append
w('(** Syntax kinds: src/parser/syntax.rs. Generated by tools/gen_enums.py from the Rust enum. *)')
w('From Verif Require Import Base Tokens.\n')
w('(** syntax.rs 5-95: [enum SyntaxKind] (constructors prefixed with [K]). *)')
w('Inductive skind :=')
w('\n'.join('| K'+t for t in ks)+'.\n')
w('Definition all_skinds : list skind :=\n  ['+'; '.join('K'+t for t in ks)+'].\n')
w('Definition skind_code (k : skind) : N :=\n  match k with\n'+'\n'.join(f'  | K{t} => {i}' for i,t in enumerate(ks))+'\n  end.\n')
w('''(** derived [PartialEq] *)
Definition skind_eqb (a b : skind) : bool := N.eqb (skind_code a) (skind_code b).

Lemma skind_code_decode : forall k, nth (N.to_nat (skind_code k)) all_skinds KError = k.
Proof. destruct k; reflexivity. Qed.

Lemma skind_eqb_eq : forall a b, skind_eqb a b = true <-> a = b.
Proof.
  intros a b; unfold skind_eqb; rewrite N.eqb_eq; split.
  - intro H. rewrite <- (skind_code_decode a), <- (skind_code_decode b), H. reflexivity.
  - intros ->; reflexivity.
Qed.

Lemma skind_eqb_refl : forall a, skind_eqb a a = true.
Proof. intro a; apply skind_eqb_eq; reflexivity. Qed.

Lemma skind_eq_dec : forall a b : skind, {a = b} + {a <> b}.
Proof.
  intros a b; destruct (skind_eqb a b) eqn:E.
  - left; apply skind_eqb_eq; exact E.
  - right; intro H; apply skind_eqb_eq in H; congruence.
Defined.

Lemma all_skinds_complete : forall k, In k all_skinds.
Proof. destruct k; cbv [all_skinds In]; tauto. Qed.

(** events.rs: [enum SyntaxEvent]. *)
Inductive event :=
| Enter (k : skind)
| Exit
| Advance.
''')
open('/verif/rocq/theories/Syntax.v','w').write('\n'.join(out))
print(len(toks),len(ks),len(kw))
