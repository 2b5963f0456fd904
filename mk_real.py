#!/usr/bin/env python3
"""Generates the real-number versions (R*.v) of the models and proofs of the
graph algorithms from the rational ones, by renaming types, operations and
lemmas.  The generated files are committed; run this only after editing the
rational ones.  usage: mk_real.py [outdir]"""
import re, sys, os
HERE = os.path.dirname(os.path.abspath(__file__)) + '/rocq/theories/'
OUT = (sys.argv[1] if len(sys.argv) > 1 else HERE.rstrip('/')) + '/'
FILES = ['HungModel', 'HungSpec', 'HungProofs', 'MurtyModel', 'MurtySpec', 'MurtyProofs',
         'BfmModel', 'BfmSpec', 'BfmProofs', 'KShortModel', 'KShortSpec', 'KShortProofs', 'KShortTrue', 'KShortProps2', 'KShortSecond']
WORDS = {'Q': 'R', 'Qltb': 'Rltb', 'Qltb_lt': 'Rltb_lt', 'Qltb_ge': 'Rltb_ge', 'Qeq_bool': 'Reqb', 'Qle_bool': 'Rleb', 'Qeqb_eq': 'Reqb_eq', 'Qeqb_neq': 'Reqb_neq',
         'Qleb_le': 'Rleb_le', 'Qleb_gt': 'Rleb_gt', 'Qn': 'Rn', 'Qn_le': 'Rn_le', 'Qn_pos': 'Rn_pos', 'Qn_plus': 'Rn_plus', 'Qn_S': 'Rn_S', 'Qle_refl': 'Rle_refl', 'Qle_antisym': 'Rle_antisym',
         'Qabs': 'Rabs', 'Qlt_le_dec': 'Rlt_le_dec', 'Qplus_comp': 'f_equal2', 'inject_Z': 'IZR', 'inject_Z_plus': 'plus_IZR', 'qsum': 'rsum', 'qsumf': 'rsumf'}
EXTRA = {
 'BfmProofs': [('apply Rleb_gt. rewrite E0. reflexivity.', 'apply Rleb_gt. rewrite E0, Rabs_R0. unfold eps. lra.'), ('rewrite H0 in H. vm_compute in H. congruence.', 'rewrite H0, Rabs_R0 in H. unfold eps in H. lra.'), ('rewrite E in H. vm_compute in H. congruence.', 'rewrite E, Rabs_R0 in H. unfold eps in H. lra.')],
 'KShortProofs': [('[right|left]; vm_compute; [discriminate|reflexivity].', '[right|left; reflexivity]. rewrite Rabs_pos_eq; unfold eps; lra.'), ('intros E. vm_compute in E. discriminate.', 'unfold eps. intros E. lra.')],
 'HungProofs': [('unfold IZR at 3. lra.', 'lra.'), ('rewrite <- Zle_Qle', 'apply IZR_le'), ('unfold pcost. induction l as [|a l IH]; simpl; [reflexivity|]', 'unfold pcost. induction l as [|a l IH]; simpl; [lra|]')],
}
for f in FILES:
    s = open(HERE + f + '.v').read()
    s = re.sub(r'[A-Za-z_][A-Za-z_0-9\']*', lambda m: WORDS.get(m.group(0), m.group(0)), s)
    s = s.replace('==', '=').replace('(1 # 4503599627370496)', '(/ 4503599627370496)').replace('1 # 4503599627370496', '/ 4503599627370496')
    s = re.sub(r'\bBase\b', 'RBase', s)
    for g in FILES: s = re.sub(r'(Import[^.]*?)\b' + g + r'\b', r'\1R' + g, s)
    for g in FILES: s = re.sub(r'\b' + g + r'\.(?=[a-z])', 'R' + g + '.', s)
    s = '(** Generated by mk_real.py from ' + f + '.v: the same over the real numbers. *)\n' + s
    if f in ('KShortProps2', 'KShortSecond'):
        s = re.sub(r'\b(C\d+_\w+)', r'\1_real', s).replace(' RKShortTrue KShortProps.', ' RKShortTrue.')
    for a, b in EXTRA.get(f, []):
        assert a in s, (f, a)
        s = s.replace(a, b)
    open(OUT + 'R' + f + '.v', 'w').write(s)

# The PHD filter over the real numbers (likelihoods are exponentials).  The
# measurement noise R of the gating section is renamed Rcov; refutations and
# examples that compute are left out; theorems get the suffix _real.
FILES=['Lists','PhdModel','PhdSpec','PhdProofs','PhdProps','PhdHist']
W = dict(WORDS)
W.update({'R':'Rcov','Qeq_bool_iff':'Reqb_eq','Qle':'Rle','Qlt':'Rlt','Qdiv':'Rdiv','Qle_bool_iff':'Rleb_le','Qle_lteq':'Rle_lteq_','Qlt_le_dec':'Rlt_le_dec','Qlt_not_eq':'Rlt_not_eq','Qmult_lt_0_compat':'Rmult_lt_0_compat','Qmult_lt_l':'Rmult_lt_l_','Qnot_eq_sym':'not_eq_sym','Qnot_le_lt':'Rnot_le_lt','Qle_shift_div_l':'Rle_shift_div_l_','Qle_shift_div_r':'Rle_shift_div_r_','Qmult_div_r':'Rmult_div_r_','Qmult_0_l':'Rmult_0_l','Qlt_le_weak':'Rlt_le','Qle_trans':'Rle_trans','Qlt_irrefl':'Rlt_irrefl','Lqa':'Lra','Qlt_le_trans':'Rlt_le_trans','Qle_lt_trans':'Rle_lt_trans','qsumn':'rsumn_','Qround':'Lia','Qmult_le_0_compat':'Rmult_le_pos'})
for f in FILES:
    s=open(HERE+f+'.v').read()
    s=re.sub(r"[A-Za-z_][A-Za-z_0-9\']*",lambda m:W.get(m.group(0),m.group(0)),s)
    s=s.replace('==','=').replace('%Q','%R')
    s=re.sub(r'(\d+) # (\d+)',r'\1 / \2',s)
    s=re.sub(r'\bBase\b','RBase',s)
    for g in FILES: s=re.sub(r'(Import[^.]*?)\b'+g+r'\b',r'\1R'+g,s)
    for g in FILES: s=re.sub(r'\b'+g+r'\.(?=[a-z])','R'+g+'.',s)
    s=re.sub(r'\b(C\d+_\w+)',r'\1_real',s)
    s='(** Generated by mk_real.py from '+f+'.v: the same over the real numbers. *)\n'+s
    open(OUT+'R'+f+'.v','w').write(s)
def cut(s,name):
    # delete the item [name] with its proof (if any) and the comment before it
    m=re.search(r"(\(\*\*(?:(?!\*\)).)*?\*\)\n)?(Theorem|Example|Definition|Lemma) "+name+r"\b.*?(?=\n(?:\(\*\*|Theorem|Example|Definition|Lemma|Fixpoint|Print|Section|End)|\Z)",s,re.S)
    assert m,name
    return s[:m.start()]+s[m.end()+1:]
CUT={'KShortSecond':['C14_exact_ex_real','C14_exact_ex2_real','C14_exact_hyp_real'],'KShortProps2':['C13_k_shortest_cost_partial_real','C13_true_ex_real','C14_second_ex_real'],
     'PhdProps':['C36_phd_merge_moment_refuted_real','ex_cfg','ex_mix','C38_phd_extract_half_refuted_real','ex_S','ex_L','ex_Li','ex_Si','C40_gate_distance_refuted_real','C73_phd_ctor_gate_refuted_real','C73_phd_ctor_gate_drops_real','ex_mix3','C31_ex_real','C32_ex_real','C33_ex_real','C35_ex_real','C37_ex_real','C40_scalar_ex_real'],
     'PhdHist':['h_cfg','pd1','h_ok','h_ops','C139_hypotheses_ex_real']}
for f in CUT:
    s=open(OUT+'R'+f+'.v').read()
    for n in CUT[f]: s=cut(s,n)
    s=re.sub(r'Print Assumptions (\w+)\.\n',lambda m: m.group(0) if m.group(1) not in CUT[f] else '',s)
    open(OUT+'R'+f+'.v','w').write(s)
EXTRA={
'Lists':[('From Coq Require Import Permutation Sorted.\n','''From Coq Require Import Permutation Sorted.
Lemma Rmult_div_r_ x y : y <> 0%R -> (y * (x / y) = x)%R.
Proof. intros H. field. exact H. Qed.
Lemma Rle_shift_div_l_ a b c : (0 < c)%R -> (a * c <= b)%R -> (a <= b / c)%R.
Proof. intros H K. apply Rmult_le_reg_r with c; [exact H|]. replace (b / c * c)%R with b by (field; lra). exact K. Qed.
Lemma Rle_shift_div_r_ a b c : (0 < c)%R -> (b <= a * c)%R -> (b / c <= a)%R.
Proof. intros H K. apply Rmult_le_reg_r with c; [exact H|]. replace (b / c * c)%R with b by (field; lra). exact K. Qed.
Lemma Rle_lteq_ x y : (x <= y)%R <-> (x < y)%R \\/ x = y.
Proof. split; [intros [H|H]; auto|intros [H|H]; [left; exact H|right; exact H]]. Qed.
Lemma Rmult_lt_l_ x y z : (0 < z)%R -> ((z * x < z * y)%R <-> (x < y)%R).
Proof. intros H. split; [apply Rmult_lt_reg_l; exact H|apply Rmult_lt_compat_l; exact H]. Qed.
'''),("Proof. induction l as [|x l IH]; [reflexivity|]. cbn [map]. rewrite !qs_cons, IH. ring. Qed.","Proof. induction l as [|x l IH]; [cbn; ring|]. cbn [map]. rewrite !qs_cons, IH. ring. Qed.")],
'PhdModel':[("""  let f := (Qnum q / Zpos (Qden q))%Z in
  match Qcompare (q - IZR f) (1 / 2)%R with
  | Lt => f
  | Gt => f + 1
  | Eq => if Z.even f then f else f + 1
  end%Z.""","""  let f := Int_part q in
  if Rlt_dec (q - IZR f) (1 / 2) then f
  else if Rlt_dec (1 / 2) (q - IZR f) then (f + 1)%Z
  else if Z.even f then f else (f + 1)%Z.""")],
'PhdHist':[('split; [cbn; discriminate|intros x []].','split; [cbn; lra|intros x []].'),('[cbn; discriminate|]','[cbn; lra|]'),('rewrite <- Zle_Qle. lia.','apply IZR_le. lia.'),('rewrite <- Zle_Qle; lia','apply IZR_le; lia')],
'PhdProps':[('rewrite Zlt_Qlt. change (IZR 0) with 0%R. lra.','apply lt_IZR. lra.')],
'PhdProofs':[('unfold vec, mat in Ek, H1. rewrite Ek in H1. rewrite H1.','match type of H1 with ?a = _ => replace (fst (fst y)) with a by (f_equal; f_equal; exact Ek) end. rewrite H1.'),("rewrite <- Zle_Qle in H, H'.","apply le_IZR in H; apply le_IZR in H'."),(re.search(r"Lemma py_round_spec.*?Qed\.\n",open(OUT+'RPhdProofs.v').read(),re.S).group(0),'''Lemma py_round_spec q : nearest_even q (py_round q).
Proof.
  destruct (base_Int_part q) as [H1 H2]. unfold py_round, nearest_even. generalize dependent (Int_part q). intros f H1 H2.
  destruct (Rlt_dec (q - IZR f) (1 / 2)) as [E|E]; [split; [lra|]; split; [lra|]; intros [H|H]; lra|].
  destruct (Rlt_dec (1 / 2) (q - IZR f)) as [E'|E'].
  - rewrite plus_IZR. split; [lra|]. split; [lra|]. intros [H|H]; lra.
  - destruct (Z.even f) eqn:Ev; [split; [lra|]; split; [lra|]; auto|].
    rewrite plus_IZR. split; [lra|]. split; [lra|]. intros _. rewrite Z.even_add, Ev. reflexivity.
Qed.
''')],
}
for f in FILES:
    s=open(OUT+'R'+f+'.v').read()
    for a,b in EXTRA.get(f,[]):
        assert a in s,(f,a)
        s=s.replace(a,b)
    open(OUT+'R'+f+'.v','w').write(s)
