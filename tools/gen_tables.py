#!/usr/bin/env python3
"""Compute the tables of rocq/theories/FmtTables.v.

Iterates the obligations of FmtAbs.v to a fixpoint (in Coq, outside the checked
development) and prints the result as Gallina. The tables are not trusted: the build
checks them with FmtAbs.check. Usage: tools/gen_tables.py, after building FmtAbs.vo;
every rule but the list of outputs may be the root."""
import os, re, subprocess, sys, tempfile

ROOT = os.path.dirname(os.path.dirname(os.path.abspath(__file__)))
COMPUTE = r'''
From Verif Require Import ProofBase Tokens Syntax Lexer ParserCore Tree Printer Formatter SpecGrammar Regex FmtAbs.
Definition row := (list (gap*dk) * list (dk*gap) * list tkind * list (bool*bool*(bool*nat)))%type.
Definition r0 : row := ([],[],[],[]).
Definition tab := list row.
Definition look (t:tab) (k:skind) : row := nth (N.to_nat (skind_code k)) t r0.
Definition heads t k := fst (fst (fst (look t k))).
Definition tails t k := snd (fst (fst (look t k))).
Definition pcl t k := snd (fst (look t k)).
Definition outs t k w oel : list (bool*nat) := map snd (filter (fun p => Bool.eqb w (fst (fst p)) && Bool.eqb oel (snd (fst p))) (snd (look t k))).
Definition out_eqb (a b:bool*bool*(bool*nat)) := Bool.eqb (fst (fst a)) (fst (fst b)) && Bool.eqb (snd (fst a)) (snd (fst b)) && Bool.eqb (fst (snd a)) (fst (snd b)).
Definition addu {A} (e:A->A->bool) (x:A) l := if existsb (e x) l then l else l ++ [x].
Definition addm {A} (e:A->A->bool) xs (l:list A) := fold_left (fun l x => addu e x l) xs l.
Fixpoint addout x l : list (bool*bool*(bool*nat)) := match l with [] => [x] | y::l' => if out_eqb x y then (fst y,(fst (snd y), Nat.min (snd (snd x)) (snd (snd y))))::l' else y :: addout x l' end.
Fixpoint upd (n:nat) (f:row->row) (t:tab) : tab := match n,t with O, r::t' => f r :: t' | S n', r::t' => r :: upd n' f t' | _,[] => [] end.
Definition updk k f t := upd (N.to_nat (skind_code k)) f t.
Definition ob_eqb a b := match a,b with
 | OSite s g d, OSite s' g' d' => src_eqb s s' && gap_eqb g g' && dst_eqb d d'
 | OHead g d, OHead g' d' => gap_eqb g g' && dst_eqb d d'
 | OTail s g, OTail s' g' => src_eqb s s' && gap_eqb g g'
 | OPrev s f, OPrev s' f' => src_eqb s s' && skind_eqb f f'
 | OOut w n, OOut w' n' => Bool.eqb w w' && Nat.eqb n n'
 | OFail, OFail => true | _,_ => false end.
Definition acc := (tab * list (src * gap * dst) * list skind)%type.
Definition apply (t0:tab) (fn:skind) (w oel:bool) (a:acc) (o:oblig) : acc :=
 let '(t,ss,fs) := a in
 match o with
 | OSite s g d => (t, addu site_eqb (s,g,d) ss, fs)
 | OHead g d => (updk fn (fun '(h,tl,p,o) => (addm head_eqb (map (fun x => (g ++ fst x, snd x)) (heads_of (heads t0) d)) h, tl, p, o)) t, ss, fs)
 | OTail s g => (updk fn (fun '(h,tl,p,o) => (h, addm tail_eqb (map (fun x => (fst x, snd x ++ g)) (tails_of (tails t0) s)) tl, p, o)) t, ss, fs)
 | OPrev s f => (updk f (fun '(h,tl,p,o) => (h, tl, addm tkind_eqb (src_cls (tails t0) (pcl t0) fn s) p, o)) t, ss, fs)
 | OOut wo n => (updk fn (fun '(h,tl,p,o) => (h,tl,p, addout (w,oel,(wo,n)) o)) t, ss, fs)
 | OFail => (t, ss, addu skind_eqb fn fs)
 end.
Definition round (a:acc) : acc :=
 let t0 := fst (fst a) in
 fold_left (fun a fn => fold_left (fun a ar => let '(ml,w,oel) := ar in
   let seen := visit (tails t0) (pcl t0) (outs t0) 3000 fn (inits fn ml w oel) [] in
   let os := flat_map (fun s => snd (trans (tails t0) (pcl t0) (outs t0) fn s)) seen in
   fold_left (apply t0 fn w oel) (dedup ob_eqb os) a) (args fn) a) all_skinds (fst (fst a),[],[]).
Definition init : acc := (map (fun k => if skind_eqb k KOutputExpressionList then r0 else ([],[],[TEOF],[])) all_skinds,[],[]).
Fixpoint iter n a := match n with O => a | S n => iter n (round a) end.
Definition size (a:acc) := (fold_left (fun '(x,y,z,u) (r:row) => let '(h,t,p,o):=r in (x+length h,y+length t,z+length p,u+length o)%nat) (fst (fst a)) (0,0,0,0)%nat, length (snd (fst a)), snd a).
Definition same (a b : acc) : bool :=
  let '(x, y, _) := size a in let '(x', y', _) := size b in
  let '(x1, x2, x3, x4) := x in let '(y1, y2, y3, y4) := x' in
  Nat.eqb x1 y1 && Nat.eqb x2 y2 && Nat.eqb x3 y3 && Nat.eqb x4 y4 && Nat.eqb y y'.
Fixpoint fixpoint n a := match n with O => a | S n => let b := round a in if same a b then b else fixpoint n b end.
Definition start := Eval vm_compute in iter 30 init.
Definition last := Eval vm_compute in fixpoint 100 start.
Set Printing Width 1000000. Set Printing Depth 1000000.
Eval vm_compute in (same last (round last), snd last).
Eval vm_compute in combine all_skinds (fst (fst last)).
Eval vm_compute in snd (fst last).
'''

def main():
    rocq = os.path.join(ROOT, "rocq", "theories")
    with tempfile.TemporaryDirectory() as d:
        path = os.path.join(d, "Compute.v")
        with open(path, "w") as f:
            f.write(COMPUTE)
        out = subprocess.run(["coqc", "-Q", rocq, "Verif", path], check=True,
                             capture_output=True, text=True).stdout
    parts = re.split(r"\n\s*: [^\n]*\n", out)
    sizes, rows, sites = [p.strip() for p in parts if p.strip()][-3:]
    if not sizes.endswith("true, [])"):
        sys.exit("no fixpoint, or failing obligations: " + sizes)
    rows = rows[rows.index("[") + 1:-1]
    sites = sites[sites.index("[") + 1:-1]
    entries = re.split(r"; (?=\(K\w+, \(\[)", rows)
    tabs = {"heads": [], "tails": [], "pcls": [], "outs": []}
    for e in entries:
        m = re.match(r"\((K\w+), \((.*)\)\)$", e)
        fields, depth, cur = [], 0, ""
        for ch in m.group(2):
            if ch == "," and depth == 0:
                fields.append(cur.strip()); cur = ""; continue
            depth += ch in "([" ; depth -= ch in ")]"
            cur += ch
        fields.append(cur.strip())
        for name, v in zip(["heads", "tails", "pcls", "outs"], fields):
            tabs[name].append((m.group(1), v))
    def wrap(s):
        s = s.replace("%nat", "")
        lines, cur = [], ""
        for piece in re.split(r"(?<=;) ", s):
            if len(cur) + len(piece) > 92:
                lines.append(cur); cur = ""
            cur += (" " if cur else "") + piece
        lines.append(cur)
        return ("\n     ").join(lines)
    types = {"heads": "list (gap * dk)", "tails": "list (dk * gap)", "pcls": "list tkind",
             "outs": "list (bool * bool * (bool * nat))"}
    docs = {"heads": "White space pushed before the first token of a function, and that token.",
            "tails": "Last token of a function, and white space pushed after it.",
            "pcls": "Classes of the tokens that may precede a function.",
            "outs": "For arguments [wrapped] and [in_oel]: results, with a lower bound for the growth\n    of the indentation."}
    w = ["(** Generated by tools/gen_tables.py; checked by [FmtAbs.check] in FmtSound.v. *)",
         "From Verif Require Import Base Tokens Syntax Formatter FmtAbs.", ""]
    for name in ["heads", "tails", "pcls", "outs"]:
        w.append("(** %s *)" % docs[name])
        n = "t_" + ("outs_all" if name == "outs" else name)
        w.append("Definition %s (k : skind) : %s :=\n  match k with" % (n, types[name]))
        for k, v in tabs[name]:
            v = re.sub(r"\((true|false), (true|false), \((true|false), (\d+)\)\)", r"(\1, \2, (\3, \4%nat))", v.replace("%nat", "")) if name == "outs" else v
            if name == "outs":
                w.append("  | %s => %s" % (k, v))
            else:
                w.append("  | %s =>\n     %s" % (k, wrap(v)))
        w.append("  end.\n")
    w.append("""Definition t_outs (k : skind) (w oel : bool) : list (bool * nat) :=
  map snd (filter (fun p => Bool.eqb w (fst (fst p)) && Bool.eqb oel (snd (fst p))) (t_outs_all k)).
""")
    w.append("(** Places where two tokens meet. *)")
    w.append("Definition t_sites : list (src * gap * dst) :=\n    [%s]." % wrap(sites))
    with open(os.path.join(rocq, "FmtTables.v"), "w") as f:
        f.write("\n".join(w) + "\n")

main()
