"""Converts the raw mutation results into /verif/seeded/LOG.jsonl (one line per attempt)."""
import json,sys
tight={('EkfModel','iekf_iter','Gauss-Newton step without the prior terms'):['C78_iteration_is_gauss_newton'],
('CompositeModel','jacobian_from_blocks','empty dictionary accepted'):['C06_empty_raises'],
('CompositeModel','plus_by_id','plus_by_id ignores new_stamp'):['C08_plus_by_id_new_stamp'],
('ProblemModel','add_residual',None):['C34_add_residual'],
('ProblemModel','is_converged','ftol test reversed'):['C79_gauss_newton_run','C79_levenberg_marquardt_run'],
('ResidualModel','prior_evaluate','Jacobian at swapped arguments'):['C75_prior_derivative'],
('GmModel','norm_weights','weights not normalised'):['C39_evaluate','C74_weight_scale'],
('ModelsModel','innov_cov','covariance not rotated'):['C50_innovation_noise'],
('ModelsModel','inv_direction','automatic direction wrong'):['C50_invariant_same_correction']}
try:
    import log_extra; tight.update(log_extra.tight); equiv=log_extra.equiv
except ImportError: equiv={}
import re,glob
thms=set()
for f in glob.glob('/verif/rocq/theories/*.v'): thms|=set(re.findall(r'^Theorem (\w+)',open(f).read(),re.M))
out=[];bad=0
for l in open(sys.argv[1]):
    r=json.loads(l)
    k=(r['file'],r['definition'],r['edit'])
    fs=r['failed']; own=bool(fs) and all(x.split('.')[0]==r['file'] for x in fs)
    d=dict(definition=f"{r['file']}.v: {r['definition']}",edit=f"{r['edit']} (`{r['old']}` -> `{r['new']}`)",claim=', '.join(r['claims']),
           theorems_failed=fs,claim_theorems_not_built=r['theorems'])
    if own: d['note']='the edited model itself no longer type-checks'
    t=tight.get(k) or tight.get((r['file'],r['definition'],None)) if not fs else r.get('tightened',[])
    if k in equiv: d['note']=equiv[k]; t=[]
    elif not fs:
        if t: d['note']='survived at first; the theorems tightened (or added) fail on it now'; 
        else: bad+=1; print('UNEXPLAINED',k)
    d['theorems_tightened']=t or []
    for x in d['theorems_tightened']:
        if x not in thms: print('no theorem',x)
    out.append(d)
open('/verif/seeded/LOG.jsonl','w').write(''.join(json.dumps(d)+'\n' for d in out))
print(len(out),'attempts',bad,'unexplained')
