#!/usr/bin/env python3
"""usage: addclaim.py PROP STATUS NOTE theorem..."""
import json,sys,subprocess
p='/verif/tools/claims.json'
d=json.load(open(p))
pr,st,note,*th=sys.argv[1:]
d=[x for x in d if x['property']!=pr]+[dict(property=pr,status=st,theorems=th,note=note)]
d.sort(key=lambda x:x['property'])
open(p,'w').write('[\n'+',\n'.join(json.dumps(x) for x in d)+'\n]\n')
subprocess.check_call([sys.executable,'/verif/tools/gen_manifest.py'],stdout=subprocess.DEVNULL,stderr=subprocess.DEVNULL)
