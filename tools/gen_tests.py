"""Writes rocq/theories/TestsArith.v: the repository's own unit-test tables for
interval_arithmetic, polynomials and enclosure_arithmetic, replayed on the model
(these are tests of the model's fidelity, not proofs of properties)."""
from fractions import Fraction as F
import os
def shape(a):
  if isinstance(a, list): return [len(a)] + (shape(a[0]) if a else [])
  return []
def flat(a):
  if isinstance(a, list):
    return [y for x in a for y in flat(x)]
  return [a]
def q(x):
  f = F(x).limit_denominator(10**6)
  return f"({f.numerator} # {f.denominator})"
def arr(a):
  return f"(of_list 0%Q [{';'.join(map(str,shape(a)))}] [{';'.join(q(x) for x in flat(a))}])"
def coef(c):
  if isinstance(c, tuple): return f"(Ivl {arr(c[0])} {arr(c[1])})"
  return f"(Arr {arr(c)})"
def enc(e): return "[" + "; ".join(coef(c) for c in e) + "]"
def zeros(*s): return full(0, *s)
def ones(*s): return full(1, *s)
def full(v, *s):
  if not s: return v
  return [full(v, *s[1:]) for _ in range(s[0])]
def eye(n, k=1): return [[k if i==j else 0 for j in range(n)] for i in range(n)]
def diag(l): return [[l[i] if i==j else 0 for j in range(len(l))] for i in range(len(l))]
out = ['''(** Generated by tools/gen_tests.py: unit-test tables of /repo replayed on the
    model (tests of fidelity, not property proofs). *)
From Coq Require Import QArith.
From Verif Require Import Base Tensor IntervalArith Polynomials Enclosure.
Open Scope nat_scope.
Definition shw (t : tensor Q) := (tshape t, map Qred (to_list t)).
Definition shc (c : coef Q) :=
  match c with Arr t => inl (shw t) | Ivl l h => inr (shw l, shw h) end.
Definition shr (r : res (coef Q)) := match r with Ok c => Ok (shc c) | Err e => Err e end.
Definition she (r : res (enclosure Q)) := match r with Ok c => Ok (map shc c) | Err e => Err e end.
Definition ar d lo hi : arith Q := mkArith d (lo, hi).
''']
n = 0
def t(expr, exp, f='shr'):
  global n
  n += 1
  out.append(f"Example t{n} : {f} ({expr}) = {f} (Ok {exp}).\nProof. vm_compute. reflexivity. Qed.")
for a,b,e in [((1,2),(10,20),(11,22)),(1,(10,20),(11,21)),((1,2),10,(11,12)),(1,10,11),
  (10,[1,2],[11,12]),([1,2],10,[11,12]),(([1,2],[3,4]),[10,20],([11,22],[13,24])),
  ([10,20],([1,2],[3,4]),([11,22],[13,24])),(([1,2],[3,4]),([10,20],[30,40]),([11,22],[33,44]))]:
  t(f"iadd {coef(a)} {coef(b)}", coef(e))
for a,b,p,e in [((2,3),(5,7),0,(10,21)),((2,3),(5,7),1,(10,21)),((-3,-2),(5,7),0,(-21,-10)),
  ((-2,3),(5,7),0,(-14,21)),((2,3),(-7,-5),0,(-21,-10)),((-3,-2),(-7,-5),0,(10,21)),
  ((-2,3),(-7,-5),0,(-21,14)),((2,3),(-5,7),0,(-15,21)),((-3,-2),(-5,7),0,(-21,15)),
  ((-2,3),(-5,7),0,(-29,31)),((-2,3),(-5,7),1,(-15,21))]:
  t(f"ibilinear {coef(a)} {coef(b)} tmul {'true' if p else 'false'}", coef(e))
for a,b,k,e in [(([2,3],[5,7]),([11,13],[17,19]),1,(61,218)),
  ((diag([2,3]),diag([5,7])),([11,13],[17,19]),1,([22,39],[85,133])),
  (ones(1,3),(zeros(3),ones(3)),1,([0],[3])),((zeros(1,3),ones(1,3)),ones(3),1,([0],[3])),
  ((zeros(1,3),ones(1,3)),(zeros(3),ones(3)),1,([0],[3])),
  (2,3,0,6),([2,3],[5,7],0,[[10,14],[15,21]]),([2,3],[5,7],1,31),((-.5,.5),(-.5,.5),0,(-.25,.25))]:
  t(f"itensordot {coef(a)} {coef(b)} {k}", coef(e))
for a,k,e in [([1,2,3],1,[1,2,3]),([1,2,3],2,[[1,0,0],[0,2,0],[0,0,3]])]:
  t(f"generalized_diag_interval {coef(a)} {k}", coef(e))
for a,b,e in [(2,5,10),((2,3),5,(10,15)),(2,(5,7),(10,14)),([2,3],[5,7],[10,21]),
  ([2,3],(5,7),([10,15],[14,21])),((5,7),[2,3],([10,15],[14,21])),
  (([2,-3,-2,2,-3,-2,2,-3,-2],[3,-2,3,3,-2,3,3,-2,3]),([5,5,5,-7,-7,-7,-5,-5,-5],[7,7,7,-5,-5,-5,7,7,7]),
   ([10,-21,-14,-21,10,-21,-15,-21,-15],[21,-10,21,-10,21,14,21,15,21]))]:
  t(f"imul {coef(a)} {coef(b)}", coef(e))
for a,e in [((1,2),(-2,-1)),([-1,2],[1,-2]),(([-1,2],[10,20]),([-10,-20],[1,-2]))]:
  t(f"Ok (ineg {coef(a)})", coef(e))
for a,k,b,e in [((-1,1),2,0,(0,1)),(([-1,-2],[3,4]),2,0,([[0,-6],[-6,0]],[[9,12],[12,16]])),([2,3],2,1,[4,9])]:
  t(f"iouter_power {coef(a)} {k} {b}", coef(e))
for a,b,k,e in [([2,3],[5,7],0,[[10,14],[15,21]]),([2,3],[5,7],1,[10,21]),
  ([1,2],([3,4],[5,6]),0,([[3,4],[6,8]],[[5,6],[10,12]])),(([3,4],[5,6]),[1,2],0,([[3,6],[4,8]],[[5,10],[6,12]])),
  (([-1,2],[1,2]),([3,4],[5,6]),0,([[-5,-6],[6,8]],[[5,6],[10,12]]))]:
  t(f"iouter_product {coef(a)} {coef(b)} {k}", coef(e))
for a,k,e in [((-2,3),2,(0,9)),((2,3),2,(4,9)),((-3,-2),2,(4,9)),((-2,3),3,(-8,27)),((2,3),3,(8,27)),
  ((-3,-2),3,(-27,-8)),(([-2,2,-3],[3,3,-2]),2,([0,4,4],[9,9,9]))]:
  t(f"ipower {coef(a)} {k}", coef(e))
for a,b,e in [((10,20),(1,2),(8,19)),(10,(1,2),(8,9)),((10,20),1,(9,19)),(10,1,9),(10,[1,2],[9,8]),
  ([10,20],1,[9,19]),(([10,20],[30,40]),[1,2],([9,18],[29,38])),([10,20],([1,2],[3,4]),([7,16],[9,18])),
  (([10,20],[30,40]),([1,2],[3,4]),([7,16],[29,38]))]:
  t(f"isub {coef(a)} {coef(b)}", coef(e))
# polynomials
for a,z,e in [((1,),3,1),((1,2),3,7),((1,2,3),3,34),((1,2,(3,4)),3,(34,43)),(([5,7],),[-1,-2],[5,7]),
  (([5,7],[3,4]),[-1,-2],[2,-1]),(([5,7],([-3,-2],[3,4])),[-1,-2],([2,-1],[8,11])),
  ((0,0,(0,1)),(-1,1),(0,1)),((0,0,(-1,1)),(-1,1),(-1,1))]:
  # numpy's 0 + array: the empty-degree case keeps the coefficient's shape
  t(f"eval_elementwise_taylor_enclosure {enc(a)} {coef(z)}", coef(e))
for a,z,e in [(([2,3],eye(2)),[-7,5],[-5,8]),(([2,3],(eye(2),eye(2,2))),[-7,5],([-12,8],[-5,13])),
  ((0,0,(0,1)),(-1,1),(0,1)),((0,0,(-1,1)),(-1,1),(-1,1))]:
  t(f"eval_taylor_enclosure {enc(a)} {coef(z)}", coef(e))
out.append('''Example tp1 : poly_bilinear (fun a b => Ok (a + b)%Z) 0%Z (fun a b _ _ => Ok (a * b)%Z) [2;3]%Z [5;7]%Z = Ok [10;29;21]%Z.
Proof. reflexivity. Qed.
Example tp2 : iter_partitions 1 2 3 = Ok [[1;1;0]]. Proof. reflexivity. Qed.
Example tp3 : iter_partitions 2 2 3 = Ok [[0;2;0];[1;0;1]]. Proof. reflexivity. Qed.
Definition ipz := integer_power (fun a b => Ok (a + b)%Z) 0%Z 1%Z (fun a b _ _ => Ok (a * b)%Z)
  (fun c _ j => Ok (c ^ Z.of_nat j)%Z) (fun k c => Ok (k * c)%Z).
Example tp4 : ipz [2;3;5]%Z 0 = Ok [1]%Z. Proof. reflexivity. Qed.
Example tp5 : ipz [2;3;5]%Z 1 = Ok [2;3;5]%Z. Proof. reflexivity. Qed.
Example tp6 : ipz [2;3;5]%Z 2 = Ok [4;12;29;30;25]%Z. Proof. reflexivity. Qed.
Example tp7 : map multinomial_coefficient [[2;0];[1;1];[9;1];[8;2];[5;2;3]] = map Ok [1;2;10;45;2520]%Z.
Proof. vm_compute. reflexivity. Qed.''')
# enclosures
def tr(x): return f"{arr(x[0])} {arr(x[1])}"
for d,r,a,b,e in [(100,(0,.25),(1,),(10,),(11,)),(100,(0,.25),(1,2),(10,),(11,2)),(100,(0,.25),(1,2),(10,20),(11,22)),
  (100,(0,.25),(1,),(10,20),(11,20)),(100,(0,.25),(1,(2,3)),(10,(20,30)),(11,(22,33))),
  (0,(0,.25),(1,2),(10,20),((11,16.5),)),
  (100,([0,0],[1,1]),([1,2],eye(2,3)),([10,20],eye(2,30)),([11,22],eye(2,33)))]:
  t(f"eadd (ar {d} {tr(r)}) {enc(a)} {enc(b)}", enc(e), 'she')
t(f"earbitrary_bilinear (ar 100 {tr((0,.5))}) {enc(([2],))} {enc(([3],))} (fun u v _ _ => tmul u v)", enc(([6],)), 'she')
for d,r,s,a,e in [(2,(0,.5),(2,3),(5,7),(2,21)),(2,(0,.5),(3,3,(2,4)),(1,1),(3,3,(2,4))),
  (2,(-10,10),(1,(-1,1)),(-1,1),(1,(-1,1))),
  (2,([-10]*3,[10]*3),([1,0,2],([-1]*3,[1]*3)),([-1,0,2],eye(3)),([1,0,2],(eye(3,-1),eye(3)))),
  (2,(zeros(1),ones(1)),(zeros(2,3),zeros(2,3)),(zeros(2,3),zeros(2,3,1)),(zeros(2,3),zeros(2,3,1)))]:
  t(f"compose_enclosures (ar {d} {tr(r)}) {enc(s)} {enc(a)}", enc(e), 'she')
for a,r,d,e in [((2,),(0,.5),0,(2,)),((2,3),(0,.5),1,(2,3)),((2,3),(0,.5),0,((2,3.5),)),((11,22),(0,.25),0,((11,16.5),)),
  (([2,3],diag([20,30])),([0,0],[.25,.5]),0,(([2,3],[7,18]),))]:
  t(f"enclose_enclosure {enc(a)} ({arr(r[0])},{arr(r[1])}) {d}", enc(e), 'she')
for d,r,a,b,e in [(100,(0,.5),(2,),(3,),(6,)),(0,(0,.5),(2,),(3,),(6,)),(100,(0,.5),(2,3),(5,),(10,15)),
  (0,(0,.5),(2,3),(5,),((10,17.5),)),(0,(0,.25),(2,),(ones(3),),(full(2,3),)),(2,(-10,10),(0,),((-1,1),),((0,0),)),
  (0,(0,.5),(ones(2,3),),(5,),(full(5,2,3),)),(0,(0,.5),(ones(2,3),),([20,30,50],),([[20,30,50],[20,30,50]],)),
  (100,(0,.5),(2,3),(0,1),(0,2,3)),(100,(0,.5),(2,[3]),(0,1),(0,[2],[3])),
  (100,(zeros(2),ones(2)),(zeros(2),eye(2)),(zeros(2),eye(2)),(zeros(2),zeros(2,2),[[[1,0],[0,0]],[[0,0],[0,1]]])),
  (100,(-13,17),((-.5,.5),),((-.5,.5),),((-.25,.25),))]:
  t(f"emultiply (ar {d} {tr(r)}) {enc(a)} {enc(b)}", enc(e), 'she')
for d,r,a,e in [(100,(zeros(2),ones(2)),([-1,2],),([1,-2],)),(100,(0,.25),(1,2),(-1,-2)),(0,(0,.25),(1,2),((-1.5,-1),))]:
  t(f"enegative (ar {d} {tr(r)}) {enc(a)}", enc(e), 'she')
for u,v,p,k,e in [(2,3,0,0,6),(zeros(2,2),zeros(2,2),1,1,zeros(2,2,2)),(zeros(2,3,5),zeros(1,1,7,11),1,2,zeros(2,3,5,7,11))]:
  t(f"(x <- pairwise_batched_multiply {arr(u)} {arr(v)} {p} {k} ;; Ok (Arr x))", coef(e))
for d,r,a,p,e in [(100,(0,1),(2,),0,(1,)),(100,(0,1),(2,),3,(8,)),
  (2,(zeros(3),[1,2,3]),(zeros(3),eye(3)),4,(zeros(3),zeros(3,3),(zeros(3,3,3),[[[1,0,0],[0,0,0],[0,0,0]],[[0,0,0],[0,4,0],[0,0,0]],[[0,0,0],[0,0,0],[0,0,9]]]))),
  (100,(zeros(3),ones(3)),(full(.5,3),),0,(ones(3),)),(100,(zeros(2),ones(2)),(ones(3),ones(3,2)),0,(ones(3),)),
  (100,(zeros(2),ones(2)),(ones(3),ones(3,2)),1,(ones(3),ones(3,2))),
  (100,(zeros(2),ones(2)),(ones(3),ones(3,2)),2,(ones(3),full(2,3,2),ones(3,2,2)))]:
  t(f"epower_nat (ar {d} {tr(r)}) {enc(a)} {p}", enc(e), 'she')
for d,r,a,b,e in [(100,(0,.5),(1,2,3),(10,20),(-9,-18,3)),(1,(0,.5),(1,2,3),(10,20),(-9,(-18,-16.5)))]:
  t(f"esubtract (ar {d} {tr(r)}) {enc(a)} {enc(b)}", enc(e), 'she')
for c0,c1,i,j,x,e in [(2,3,5,7,0,6),((-2,3),(-5,7),11,13,0,(-15,21)),([2,3],[[5,0,0],[0,0,7]],0,1,1,[[10,0,0],[0,0,21]])]:
  t(f"elementwise_term_product_coefficient {x} {coef(c0)} {coef(c1)} {i} {j}", coef(e))
for c,i,k,x,e in [(2,3,5,0,32),((-.5,.5),3,2,0,(0,.25)),(([-.5,0],[.5,0]),1,2,1,([[0,0],[0,0]],[[.25,0],[0,0]])),([2,3],0,2,5,[4,9])]:
  t(f"elementwise_term_power_coefficient {x} {coef(c)} {i} {k}", coef(e))
for a,b,e in [(2,3,6),(full(5,2),full(7,2,3),full(35,2,3))]:
  t(f"(x <- left_broadcasting_multiply {arr(a)} {arr(b)} ;; Ok (Arr x))", coef(e))
p = os.path.join(os.path.dirname(__file__), '../rocq/theories/TestsArith.v')
open(p,'w').write("\n".join(out) + "\n")
print(n)
