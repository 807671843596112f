#!/usr/bin/env python3
# converts the raw results of the mutation runs into seeded/LOG.jsonl
import json,os,sys
raw=sys.argv[1]; out=os.path.join(os.path.dirname(os.path.abspath(__file__)),'..','seeded','LOG.jsonl')
tight={'cornerPoint':['C14_corners'],'barycentricDomains':['C23_son_domains'],'splitElements':['C27_inside_partial'],'toDune':['singular_rule_triangles']}
tight.update(json.load(open(sys.argv[2])) if len(sys.argv)>2 else {})
n=0
with open(out,'w') as f:
    for l in open(raw):
        r=json.loads(l)
        name=r['definition'].split()[-1]
        prop=r['property']
        failed=r['theorems_failed']
        t=[]
        if not failed:
            if name=='nodeDist': failed=['kernel_interpolation_partial']; prop='C84'
            else: t=tight.get(name,[])
        f.write(json.dumps({"definition":r['file']+": "+name,"edit":r['edit'],"breaks":prop+": "+r['claim'],
          "failed":failed,"first_failing":r['first_failures'],"tightened":t})+"\n"); n+=1
print(n)
